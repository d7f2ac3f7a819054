(** * Theorems C03-C09: non-dominated sorting *)
From Coq Require Import List ZArith Bool Lia Arith Permutation Floats.SpecFloat.
From Verif Require Import Flt ListAux M_Dominator M_NDS S_Pareto S_NDS P_Dominator P_Peel P_FastNDS P_NDS1 P_NDS2 P_NDS3 P_Tree.
Import ListNotations.

(** the Pareto peeling of a point set is unique (as a sequence of sets): "the same fronts" is well defined *)
Theorem C03_peeling_unique : forall n dom f g,
  is_peeling n dom f -> is_peeling n dom g ->
  length f = length g /\ forall k i, In i (nth k f []) <-> In i (nth k g []).
Proof. exact peeling_unique. Qed.
Print Assumptions C03_peeling_unique.

(** C03: fast_non_dominated_sort (util/nds) terminates with the Pareto peeling *)
Theorem C03_fast_nds : forall m F, rect m F -> mat_ok F ->
  exists fronts, fast_nds (fun F => calc_domination_matrix F None f_zero) F = Some fronts /\
                 is_peeling (length F) (row_dom F) fronts.
Proof. exact fast_nds_peeling. Qed.
Print Assumptions C03_fast_nds.

(** C03: with a custom dominator: any matrix whose upper triangle encodes a strict order *)
Theorem C03_fast_nds_any_dominator : forall M dom,
  encodes M dom -> (forall i, i < length M -> ~ dom i i) ->
  (forall i j k, i < length M -> j < length M -> k < length M -> dom i j -> dom j k -> dom i k) ->
  exists fronts, fast_nds_matrix M = Some fronts /\ is_peeling (length M) dom fronts.
Proof. exact fast_nds_matrix_peeling. Qed.
Print Assumptions C03_fast_nds_any_dominator.

(** C03: the copy in functions/standard (early exits included), for any number of objectives but the bi-objective
    special case, which is C07 *)
Theorem C03_std_fast_nds : forall m F I0, 0 < m -> rect m F -> mat_ok F ->
  exists fronts, std_fast_nds (fun F => calc_domination_matrix F None f_zero) false I0 F = Some fronts /\
                 is_peeling (length F) (row_dom F) fronts.
Proof. exact std_fast_nds_peeling. Qed.
Print Assumptions C03_std_fast_nds.

(** C04: efficient non-dominated sort, both strategies, for whatever order numpy's lexsort gives to ties *)
Theorem C04_ens_nds : forall m F I s, rect m F -> mat_ok F -> is_argsort lexlt [] F I ->
  exists fronts, ens_nds s I F = Some fronts /\ is_peeling (length F) (row_dom F) fronts.
Proof. exact ens_nds_peeling. Qed.
Print Assumptions C04_ens_nds.

(** the two strategies and the fast sort all agree *)
Theorem C04_ens_agrees_with_fast : forall m F I s f g, rect m F -> mat_ok F -> is_argsort lexlt [] F I ->
  ens_nds s I F = Some f -> fast_nds (fun F => calc_domination_matrix F None f_zero) F = Some g ->
  length f = length g /\ forall k i, In i (nth k f []) <-> In i (nth k g []).
Proof.
  intros m F I s f g Hr Hok HI Hf Hg.
  destruct (ens_nds_peeling m F I s Hr Hok HI) as (f' & E1 & P1). destruct (fast_nds_peeling m F Hr Hok) as (g' & E2 & P2).
  assert (f' = f) by congruence. assert (g' = g) by congruence. subst. eapply peeling_unique; eauto.
Qed.
Print Assumptions C04_ens_agrees_with_fast.

(** C05: the dominance-degree matrix counts; identical rows are set to 0 *)
Theorem C05_degree_matrix : forall m F b i j, 0 < m -> rect m F -> mat_ok F -> argsort_columns m F b ->
  i < length F -> j < length F ->
  entry (construct_domination_matrix F b) i j =
  if (degree m F i j =? m) && (degree m F j i =? m) then 0%Z else Z.of_nat (degree m F i j).
Proof.
  intros m F b i j Hm Hr Hok Hb Hi Hj.
  destruct (dda_square m F b Hm Hr Hok Hb ltac:(intros ->; simpl in Hi; lia)) as [_ H]. now apply H.
Qed.
Print Assumptions C05_degree_matrix.

(** C05: both dominance-degree sorts, any tie order of the argsorts / the lexsort *)
Theorem C05_dda_ns : forall m F b, 0 < m -> rect m F -> mat_ok F -> argsort_columns m F b -> F <> [] ->
  exists fronts, dda_ns F b = Some fronts /\ is_peeling (length F) (row_dom F) fronts.
Proof. exact dda_ns_peeling. Qed.
Theorem C05_dda_ens : forall m F b I, 0 < m -> rect m F -> mat_ok F -> argsort_columns m F b -> F <> [] ->
  is_argsort (fun x y => lexlt (rev x) (rev y)) [] F I ->
  is_peeling (length F) (row_dom F) (dda_ens F b I).
Proof. intros. now apply (dda_ens_peeling m). Qed.
Print Assumptions C05_dda_ns.
Print Assumptions C05_dda_ens.

(** C06: what the tree-based sort computes, for every input and all row orderings: the peeling of
    "comes earlier in the lexicographic order and is no worse in objectives 1..M-1" *)
Theorem C06_tree_characterisation : forall m F I oseq,
  0 < m -> rect m F -> Permutation I (seq 0 (length F)) -> obj_seq_ok m (length F) oseq ->
  exists fronts, tree_nds I oseq F = Some (map (gather 0 I) fronts) /\
    is_peeling (length F)
      (fun p q => p < q /\ forall o, 1 <= o < m -> fleb (cell F (nth p I 0) o) (cell F (nth q I 0) o) = true) fronts.
Proof.
  intros m F I oseq Hm Hr HI Ho. destruct (tree_nds_spec m F I oseq Hm Hr HI Ho) as (fr & E & HP).
  exists fr. split; auto. eapply is_peeling_ext; [|exact HP]. intros i j Hi Hj. unfold tdom, le_tail.
  pose proof (perm_seq_length _ _ HI) as HL.
  assert (Hc : forall a o, a < length F -> cell (gather [] F I) a o = cell F (nth a I 0) o).
  { intros a o Ha. unfold cell. now rewrite nth_gather by lia. }
  split; intros [H1 H2]; split; auto; intros o Hoo; specialize (H2 o Hoo); rewrite ?Hc in * by auto; auto.
Qed.
Print Assumptions C06_tree_characterisation.

(** C06, partial: without duplicated rows it is the Pareto peeling (missing: duplicated rows, where the claim is false) *)
Theorem C06_tree_nds_distinct : forall m F I oseq,
  0 < m -> rect m F -> mat_ok F -> distinct_rows m F -> is_argsort lexlt [] F I -> obj_seq_ok m (length F) oseq ->
  exists fronts, tree_nds I oseq F = Some fronts /\ is_peeling (length F) (row_dom F) fronts.
Proof. exact tree_nds_peeling. Qed.
Print Assumptions C06_tree_nds_distinct.

(** C06 is false with duplicates: two equal points end up in different fronts *)
Theorem C06_tree_duplicates_refuted :
  exists m F I oseq fronts, 0 < m /\ rect m F /\ mat_ok F /\ is_argsort lexlt [] F I /\ obj_seq_ok m (length F) oseq /\
    tree_nds I oseq F = Some fronts /\ ~ is_peeling (length F) (row_dom F) fronts.
Proof.
  exists 2, [[fz 1; fz 1]; [fz 1; fz 1]], [0; 1], [[1]; [1]], [[0]; [1]].
  split; [lia|]. split; [repeat constructor|]. split; [repeat constructor|]. split.
  { split; [repeat constructor|]. intros p q Hpq Hq. simpl in Hq. assert (p = 0) by lia. assert (q = 1) by lia. subst. reflexivity. }
  split; [intros [|[|k]] Hk; simpl in *; try lia; apply Permutation_refl|]. split; [vm_compute; reflexivity|].
  intros (_ & _ & H). specialize (H 0 1 ltac:(simpl; lia)). destruct H as [_ H]. cbn [nth] in H.
  destruct H as [H|[]]; [|discriminate]. split; [simpl; lia|]. split; [intros (k' & Hk' & _); lia|].
  intros [|[|j]] Hj _ Hd; simpl in Hj; try lia; exact (row_dom_irrefl [[fz 1; fz 1]; [fz 1; fz 1]] 0 Hd).
Qed.
Print Assumptions C06_tree_duplicates_refuted.

(** C07: what the bi-objective sort computes for every input: the peeling of "comes earlier in the sort by the first
    objective and is no worse in the second" *)
Theorem C07_biobj_characterisation : forall m F I, rect m F -> 2 <= m -> mat_ok F -> is_argsort fltb f_nan (column F 0) I ->
  exists fronts, biobj_nds I F = Some (map (gather 0 I) fronts) /\
    is_peeling (length F) (fun p q => p < q /\ fleb (cell F (nth p I 0) 1) (cell F (nth q I 0) 1) = true) fronts.
Proof.
  intros m F I Hr Hm Hok HI. destruct (biobj_nds_spec m F I Hr Hm Hok HI) as (fr & E & HP).
  exists fr. split; auto. eapply is_peeling_ext; [|exact HP]. intros i j Hi Hj. unfold bdom.
  destruct HI as [HI _]. unfold column in HI. rewrite map_length in HI. pose proof (perm_seq_length _ _ HI) as HL.
  unfold cell. rewrite !nth_gather by lia. tauto.
Qed.
Print Assumptions C07_biobj_characterisation.

(** C07, partial: with pairwise different first objectives it is the Pareto peeling (missing: ties, where the claim is false) *)
Theorem C07_biobj_distinct : forall F I, rect 2 F -> mat_ok F -> distinct_first F -> is_argsort fltb f_nan (column F 0) I ->
  exists fronts, biobj_nds I F = Some fronts /\ is_peeling (length F) (row_dom F) fronts.
Proof. exact biobj_nds_peeling. Qed.
Print Assumptions C07_biobj_distinct.

(** C07 is false when first objectives tie: (1,2) is put in the first front although (1,1) dominates it *)
Theorem C07_biobj_ties_refuted :
  exists F I fronts, rect 2 F /\ mat_ok F /\ is_argsort fltb f_nan (column F 0) I /\
    biobj_nds I F = Some fronts /\ ~ is_peeling (length F) (row_dom F) fronts.
Proof.
  exists [[fz 1; fz 2]; [fz 1; fz 1]], [0; 1], [[0; 1]].
  split; [repeat constructor|]. split; [repeat constructor|]. split.
  { split; [repeat constructor|]. intros p q Hpq Hq. simpl in Hq. assert (p = 0) by lia. assert (q = 1) by lia. subst. reflexivity. }
  split; [vm_compute; reflexivity|].
  intros (_ & _ & H). specialize (H 0 0 ltac:(simpl; lia)). destruct H as [H _]. cbn [nth] in H.
  destruct H as (_ & _ & H); [simpl; auto|]. apply (H 1); [simpl; lia | intros (k' & Hk' & _); lia |].
  split; [repeat constructor|]. exists 1, (fz 1), (fz 2). repeat split.
Qed.
Print Assumptions C07_biobj_ties_refuted.

(** C08: exactly the points that no other point dominates, in increasing order *)
Theorem C08_find_non_dominated_std : forall m F, rect m F -> mat_ok F -> forall i,
  In i (find_non_dominated_std F f_zero) <-> i < length F /\ forall j, j < length F -> ~ row_dom F j i.
Proof. exact find_non_dominated_std_spec. Qed.
Theorem C08_std_increasing : forall F eps, Sorted.StronglySorted lt (find_non_dominated_std F eps).
Proof. intros. apply where_sorted. Qed.
Print Assumptions C08_find_non_dominated_std.
Print Assumptions C08_std_increasing.

(** C08: with a second set (order of the result: increasing).  Without a second set the call is delegated to moocore. *)
Theorem C08_find_non_dominated_cross : forall m F G is_nd, rect m F -> rect m G -> mat_ok F -> mat_ok G -> forall i,
  In i (find_non_dominated is_nd F (Some G)) <->
  i < length F /\ forall j, j < length G -> ~ dominates (nth j G []) (nth i F []).
Proof. exact find_non_dominated_cross. Qed.
Theorem C08_increasing : forall is_nd F G, Sorted.StronglySorted lt (find_non_dominated is_nd F G).
Proof.
  intros. unfold find_non_dominated. destruct (_ =? 0); [constructor|]. destruct G; apply where_sorted.
Qed.
Print Assumptions C08_find_non_dominated_cross.
Print Assumptions C08_increasing.

(** C08, default path: if moocore's flag says "nondominated", the result is exactly the non-dominated set *)
Theorem C08_find_non_dominated_default : forall F is_nd,
  (forall i, i < length F -> (nth i (is_nd F) false = true <-> forall j, j < length F -> ~ row_dom F j i)) -> forall i,
  In i (find_non_dominated is_nd F None) <-> i < length F /\ forall j, j < length F -> ~ row_dom F j i.
Proof.
  intros F is_nd H i. unfold find_non_dominated. destruct (Nat.eqb_spec (length F) 0) as [E|E].
  - split; [intros []|]. intros [Hi _]. lia.
  - rewrite In_where. split; intros [Hi Hd]; split; auto; now apply H.
Qed.
Print Assumptions C08_find_non_dominated_default.

(** C09, path without a dominator: the full result is the Pareto peeling *)
Theorem C09_default_full : forall F ranks raw big, F <> [] -> is_pareto_rank F ranks ->
  is_peeling (length F) (row_dom F) (nds_do_fronts (length F) false ranks raw big false None None).
Proof.
  intros F ranks raw big Hne HR. pose proof HR as (Hl & _).
  assert (length F <> 0) by (destruct F; [congruence|simpl; lia]).
  rewrite <- Hl at 2. rewrite nds_do_default by lia. cbv zeta. apply fronts_of_ranks_peeling; auto.
Qed.
(** asking for k fronts gives the first k *)
Theorem C09_default_n_fronts : forall ranks raw big ns k, ranks <> [] ->
  nds_do_fronts (length ranks) false ranks raw big false None (Some k) =
    firstn k (nds_do_fronts (length ranks) false ranks raw big false None None) /\
  prefix (nds_do_fronts (length ranks) false ranks raw big false ns (Some k))
         (firstn k (nds_do_fronts (length ranks) false ranks raw big false None None)).
Proof.
  intros ranks raw big ns k Hne. assert (length ranks <> 0) by (destruct ranks; [congruence|simpl; lia]).
  rewrite !nds_do_default by auto. cbv zeta. split; auto. destruct ns; [apply do_dominator_loop_prefix|].
  exists []. now rewrite app_nil_r.
Qed.
(** stopping after s ranked points: the shortest non-empty prefix holding at least s points *)
Theorem C09_default_n_stop : forall ranks raw big s, ranks <> [] ->
  let full := nds_do_fronts (length ranks) false ranks raw big false None None in
  let out := nds_do_fronts (length ranks) false ranks raw big false (Some s) None in
  prefix out full /\ out <> [] /\
  (out = full \/ s <= length (concat out)) /\
  (forall k, 0 < k < length out -> length (concat (firstn k out)) < s).
Proof.
  intros ranks raw big s Hne. assert (Hl : length ranks <> 0) by (destruct ranks; [congruence|simpl; lia]).
  rewrite !nds_do_default by auto. cbv zeta.
  destruct (do_dominator_loop_spec (fronts_of_ranks ranks) s 0) as (H1 & H2 & H3).
  pose proof (do_dominator_loop_prefix (fronts_of_ranks ranks) s 0) as Hp. split; auto.
  split; [apply H3; unfold fronts_of_ranks; rewrite Nat.add_comm; discriminate|]. split; auto.
  destruct (Nat.lt_ge_cases (length (do_dominator_loop (fronts_of_ranks ranks) s 0)) (length (fronts_of_ranks ranks))) as [H|H].
  - right. now apply H1.
  - left. destruct Hp as (r & Hr). assert (length r = 0).
    { apply (f_equal (@length _)) in Hr. rewrite app_length in Hr. lia. }
    destruct r; [now rewrite app_nil_r in Hr|discriminate].
Qed.
Print Assumptions C09_default_full.
Print Assumptions C09_default_n_fronts.
Print Assumptions C09_default_n_stop.

(** C09, path with a custom dominator ([raw] is the full sort, C03) and a stopping number *)
Theorem C09_dominator_n_stop : forall n ranks raw big s nf, n <> 0 -> raw <> [] ->
  let out := nds_do_fronts n true ranks raw big false (Some s) nf in
  prefix out raw /\ out <> [] /\
  (out = raw \/ s <= length (concat out)) /\
  (forall k, 0 < k < length out -> length (concat (firstn k out)) < s).
Proof.
  intros n ranks raw big s nf Hn Hraw. unfold nds_do_fronts. destruct (Nat.eqb_spec n 0); [congruence|]. cbn [negb]. cbv zeta.
  destruct (do_dominator_loop_spec raw s 0) as (H1 & H2 & H3).
  pose proof (do_dominator_loop_prefix raw s 0) as Hp. split; auto. split; auto. split; auto.
  destruct (Nat.lt_ge_cases (length (do_dominator_loop raw s 0)) (length raw)) as [H|H].
  - right. now apply H1.
  - left. destruct Hp as (r & Hr). assert (length r = 0).
    { apply (f_equal (@length _)) in Hr. rewrite app_length in Hr. lia. }
    destruct r; [now rewrite app_nil_r in Hr|discriminate].
Qed.
Print Assumptions C09_dominator_n_stop.

(** C09: [only_non_dominated_front]: exactly the non-dominated set, on both paths, for every further option *)
Theorem C09_only_first : forall F dominator ranks raw big ns nf,
  F <> [] -> (if dominator : bool then is_peeling (length F) (row_dom F) raw else is_pareto_rank F ranks) -> forall i,
  In i (nds_do_first (length F) dominator ranks raw big ns nf) <-> i < length F /\ forall j, j < length F -> ~ row_dom F j i.
Proof.
  intros F dominator ranks raw big ns nf Hne HR i.
  assert (Hl0 : length F <> 0) by (destruct F; [congruence|simpl; lia]).
  assert (Hpeel : forall fr, is_peeling (length F) (row_dom F) fr ->
     (In i (nth 0 fr []) <-> i < length F /\ forall j, j < length F -> ~ row_dom F j i)).
  { intros fr (HP & HN & HF). destruct fr as [|f0 fr].
    - exfalso. simpl in HP. apply Permutation_nil in HP. destruct (length F); [lia|discriminate].
    - rewrite HF by (simpl; lia). split.
      + intros (H1 & _ & H2). split; auto. intros j Hj. apply H2; auto. intros (k' & Hk' & _); lia.
      + intros (H1 & H2). split; auto. split; [intros (k' & Hk' & _); lia|]. auto. }
  unfold nds_do_first. destruct dominator.
  - unfold nds_do_fronts. destruct (Nat.eqb_spec (length F) 0); [lia|]. cbn [negb].
    rewrite <- (Hpeel raw HR). destruct raw as [|f0 raw]; [reflexivity|]. cbn [do_dominator_loop].
    destruct (_ <=? _); reflexivity.
  - pose proof HR as (Hl & _). rewrite <- (Hpeel _ (fronts_of_ranks_peeling F ranks Hl0 HR)).
    unfold nds_do_fronts. destruct (Nat.eqb_spec (length F) 0); [lia|]. cbn [negb]. unfold fronts_of_ranks.
    rewrite Nat.add_comm. cbn [plus seq do_default_loop Nat.leb map nth]. reflexivity.
Qed.
Print Assumptions C09_only_first.

(** C09: with a custom dominator the option [n_fronts] is ignored (the claim is false there) *)
Theorem C09_dominator_n_fronts_refuted :
  exists n raw big k, is_peeling n (fun i j => i < j) raw /\
    length (nds_do_fronts n true [] raw big false None (Some k)) > k.
Proof.
  exists 2, [[0]; [1]], 100, 1. split; [|vm_compute; lia].
  apply layered_peeling. split; [repeat constructor|]. split; [intros [|[|k]]; simpl; try lia; discriminate|]. split.
  - intros [|[|k]] [|[|k']] i j Hi Hj Hd; simpl in *; try (destruct k; simpl in *; tauto); try (destruct k'; simpl in *; tauto); destruct Hi as [<-|[]], Hj as [<-|[]]; lia.
  - intros [|[|k]] i Hi; simpl in *; try (destruct k; simpl in *; tauto); try tauto. exists 0. split; auto. destruct Hi as [<-|[]]; lia.
Qed.
Print Assumptions C09_dominator_n_fronts_refuted.
(** exactly: with a custom dominator the answer never depends on [n_fronts] *)
Theorem C09_dominator_n_fronts_ignored : forall n ranks raw big only_first n_stop k,
  nds_do_fronts n true ranks raw big only_first n_stop (Some k) = nds_do_fronts n true ranks raw big only_first n_stop None.
Proof. reflexivity. Qed.

(** C09: ranks *)
Theorem C09_rank_from_fronts : forall maxsize fronts n,
  NoDup (concat fronts) ->
  (forall k i, k < length fronts -> In i (nth k fronts []) -> i < n ->
     nth i (rank_from_fronts maxsize fronts n) 0%Z = Z.of_nat k) /\
  (forall i, i < n -> ~ In i (concat fronts) -> nth i (rank_from_fronts maxsize fronts n) 0%Z = maxsize) /\
  length (rank_from_fronts maxsize fronts n) = n.
Proof. exact rank_from_fronts_spec. Qed.
Print Assumptions C09_rank_from_fronts.

(** ** the hypotheses are met by non-trivial data, and the models compute *)
Definition exF : fltmat := [[fz 3; fz 1]; [fz 1; fz 3]; [fz 2; fz 2]; [fz 3; fz 3]; [fz 4; fz 4]; [fz 2; fz 5]].
Example ex_rect_ok : rect 2 exF /\ mat_ok exF.
Proof. split; repeat constructor. Qed.
Example ex_lexsort : is_argsort lexlt [] exF (argsort lexlt [] exF).
Proof. apply (lexsort_exists 2); apply ex_rect_ok. Qed.
Example ex_distinct_rows : distinct_rows 2 exF.
Proof.
  intros i j Hi Hj Hne. simpl in Hi, Hj.
  do 6 (destruct i as [|i]; [do 6 (destruct j as [|j]; [first [congruence | exists 0; split; [lia|reflexivity] | exists 1; split; [lia|reflexivity]]|]); lia|]); lia.
Qed.
Example ex_fast : fast_nds (fun F => calc_domination_matrix F None f_zero) exF = Some [[0; 1; 2]; [3; 5]; [4]].
Proof. vm_compute. reflexivity. Qed.
Example ex_ens : ens_nds Sequential (argsort lexlt [] exF) exF = Some [[1; 2; 0]; [5; 3]; [4]]
              /\ ens_nds Binary (argsort lexlt [] exF) exF = Some [[1; 2; 0]; [5; 3]; [4]].
Proof. vm_compute. auto. Qed.
Example ex_tree : tree_nds (argsort lexlt [] exF) (repeat [1] 6) exF = Some [[1; 2; 0]; [5; 3]; [4]].
Proof. vm_compute. reflexivity. Qed.
Example ex_dda : dda_ns exF (map (fun k => argsort fltb f_nan (column exF k)) [0; 1]) = Some [[0; 1; 2]; [3; 5]; [4]].
Proof. vm_compute. reflexivity. Qed.
Definition exB : fltmat := [[fz 3; fz 1]; [fz 1; fz 3]; [fz 2; fz 2]; [fz 5; fz 3]; [fz 4; fz 4]].
Example ex_distinct_first : rect 2 exB /\ mat_ok exB /\ distinct_first exB /\ is_argsort fltb f_nan (column exB 0) [1; 2; 0; 4; 3].
Proof.
  split; [repeat constructor|]. split; [repeat constructor|]. split.
  - intros i j Hi Hj Hne. simpl in Hi, Hj.
    do 5 (destruct i as [|i]; [do 5 (destruct j as [|j]; [first [congruence | reflexivity]|]); lia|]); lia.
  - split.
    + apply perm_seq_of_NoDup; [repeat constructor; simpl; lia|]. intros i. simpl. lia.
    + intros p q Hpq Hq. simpl in Hq. do 5 (destruct p as [|p]; [do 5 (destruct q as [|q]; [first [lia | reflexivity]|]); lia|]); lia.
Qed.
Example ex_biobj : biobj_nds [1; 2; 0; 4; 3] exB = Some [[1; 2; 0]; [4; 3]].
Proof. vm_compute. reflexivity. Qed.
Example ex_pareto_rank : is_pareto_rank exF [0; 0; 0; 1; 2; 1].
Proof.
  destruct (fast_nds_peeling 2 exF (proj1 ex_rect_ok) (proj2 ex_rect_ok)) as (fr & E & HP).
  rewrite ex_fast in E. injection E as <-. split; [reflexivity|]. exists [[0; 1; 2]; [3; 5]; [4]]. split; auto.
  intros i k Hi. simpl in Hi. do 6 (destruct i as [|i]; [do 3 (destruct k as [|k]; [simpl; split; intros; intuition (try discriminate; try lia)|]); split; [discriminate|destruct k; simpl; tauto]|]). lia.
Qed.
Example ex_do : nds_do_fronts 6 false [0; 0; 0; 1; 2; 1] [] 100 false (Some 4) None = [[0; 1; 2]; [3; 5]]
             /\ nds_do_fronts 6 false [0; 0; 0; 1; 2; 1] [] 100 false None (Some 1) = [[0; 1; 2]].
Proof. vm_compute. auto. Qed.
