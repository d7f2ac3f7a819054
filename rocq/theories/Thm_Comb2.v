(** * Theorems C89: flow shop and knapsack *)
From Coq Require Import String List Arith Bool Reals Lra Lia.
From Verif Require Import Flt ListAux M_Params M_Evaluate M_NSGA3R M_Comb Thm_NSGA3R P_Params Thm_Evaluate Thm_Static Thm_Comb.
Import ListNotations.
Local Open Scope R_scope.

(** ** specification of flow shop schedules: machine i, job in position j; [p] the processing times, [s] the starting times.
    No start before time 0; a machine handles one job after the other in the order of the sequence; a job passes the machines in order *)
Definition schedule (M N : nat) (p s : nat -> nat -> R) : Prop :=
  (forall i j, (i < M)%nat -> (j < N)%nat -> 0 <= s i j) /\
  (forall i j, (i < M)%nat -> (S j < N)%nat -> s i j + p i j <= s i (S j)) /\
  (forall i j, (S i < M)%nat -> (j < N)%nat -> s i j + p i j <= s (S i) j).
Definition job_times (records : list (list R)) (x : list nat) (i j : nat) : R := nth (nth j x 0%nat) (nth i records []) 0.
Definition table (mt : list (list R)) (i j : nat) : R := nth j (nth i mt []) 0.

(** the recurrence the table satisfies *)
Fixpoint col0 (p : nat -> nat -> R) (i : nat) : R := match i with O => 0 | S i => col0 p i + p i O end.
Fixpoint colS (p : nat -> nat -> R) (j : nat) (prev : nat -> R) (i : nat) : R :=
  match i with O => prev O + p O j | S i' => Rmax (prev (S i') + p (S i') j) (colS p j prev i' + p i' (S j)) end.
Fixpoint start (p : nat -> nat -> R) (j : nat) : nat -> R := match j with O => col0 p | S j => colS p j (start p j) end.

Section Flow.
  Variables (M N : nat) (records : list (list R)) (x : list nat).
  Let p := proc records x.
  Hypothesis HM : (1 <= M)%nat.
  Hypothesis HN : (1 <= N)%nat.
  (** rows below k have c + 1 entries, the others c *)
  Definition part (c k : nat) (mt : list (list R)) : Prop := length mt = M /\ forall i, (i < M)%nat -> nth i mt [] = map (fun j => start p j i) (seq 0 (if i <? k then S c else c)).
  Lemma tm_part c k mt i j : part c k mt -> (i < M)%nat -> (j < (if i <? k then S c else c))%nat -> tm mt i j = start p j i.
  Proof. intros [L H] Hi Hj. unfold tm. rewrite H by auto. rewrite (nth_indep _ 0 (start p 0 i)) by now rewrite map_length, seq_length. rewrite (map_nth (fun j => start p j i)), seq_nth by auto. reflexivity. Qed.
  Lemma part_step c k mt v : part c k mt -> (k < M)%nat -> v = start p c k -> part c (S k) (app_row mt k v).
  Proof.
    intros [L H] Hk ->. split; [unfold app_row; now rewrite length_upd|]. intros i Hi. unfold app_row. destruct (Nat.eq_dec i k) as [->|HNE].
    - rewrite nth_upd_eq by lia. rewrite H by auto. rewrite Nat.ltb_irrefl. rewrite (proj2 (Nat.ltb_lt k (S k))) by lia. now rewrite seq_S, map_app.
    - rewrite nth_upd_neq by auto. rewrite H by auto. destruct (Nat.ltb_spec i k), (Nat.ltb_spec i (S k)); auto; lia.
  Qed.
  Lemma part_full c mt : part c M mt -> part (S c) 0 mt.
  Proof. intros [L H]. split; auto. intros i Hi. rewrite H by auto. rewrite (proj2 (Nat.ltb_lt i M)) by auto. reflexivity. Qed.
  Lemma rows_loop c f : (forall mt i, (1 <= i < M)%nat -> part c i mt -> f mt i = start p c i) -> forall n k mt, (1 <= k)%nat -> (k + n = M)%nat -> part c k mt -> part c M (fold_left (fun mt i => app_row mt i (f mt i)) (seq k n) mt).
  Proof.
    intros Hf. induction n as [|n IH]; intros k mt H1 H2 HP; cbn [seq fold_left]; [now replace M with k by lia|]. apply IH; try lia. apply part_step; auto; [lia|]. apply Hf; auto. lia.
  Qed.
  Lemma first_part : part 1 0 (first_job M records x).
  Proof.
    apply part_full. unfold first_job. apply (rows_loop 0 (fun mt i => tm mt (i - 1) 0 + proc records x (i - 1) 0)); try lia.
    - intros mt i Hi HP. destruct i as [|i]; [lia|]. rewrite Nat.sub_succ, Nat.sub_0_r. rewrite (tm_part 0 (S i) mt i 0 HP) by (try lia; rewrite (proj2 (Nat.ltb_lt i (S i))); lia). reflexivity.
    - apply part_step; auto; try lia. split; [apply repeat_length|]. intros i Hi. cbn [Nat.ltb Nat.leb seq map]. clear. revert i. induction M as [|k IH]; intros [|i]; cbn; auto.
  Qed.
  Lemma next_part c mt : part (S c) 0 mt -> part (S (S c)) 0 (next_job M records x mt (S c)).
  Proof.
    intros HP. apply part_full. unfold next_job. apply (rows_loop (S c) (fun mt i => Rmax (tm mt i (S c - 1) + proc records x i (S c - 1)) (tm mt (i - 1) (S c) + proc records x (i - 1) (S c)))); try lia.
    - intros mt' i Hi HP'. destruct i as [|i]; [lia|]. rewrite !Nat.sub_succ, !Nat.sub_0_r. rewrite (tm_part _ _ mt' (S i) c HP') by (try lia; destruct (S i <? S i); lia). rewrite (tm_part _ _ mt' i (S c) HP') by (try lia; rewrite (proj2 (Nat.ltb_lt i (S i))); lia). reflexivity.
    - apply part_step; auto. rewrite Nat.sub_succ, Nat.sub_0_r. rewrite (tm_part _ _ mt 0 c HP) by (cbn; lia). reflexivity.
  Qed.
  Lemma times_part : part N 0 (machine_times M N records x).
  Proof.
    unfold machine_times. assert (G : forall n c mt, part (S c) 0 mt -> part (S c + n) 0 (fold_left (next_job M records x) (seq (S c) n) mt)).
    { induction n as [|n IH]; intros c mt HP; cbn [seq fold_left]; [now rewrite Nat.add_0_r|]. rewrite <- Nat.add_succ_comm. apply IH. now apply next_part. }
    specialize (G (N - 1)%nat 0%nat _ first_part). now replace (1 + (N - 1))%nat with N in G by lia.
  Qed.
  Lemma times_shape : length (machine_times M N records x) = M /\ forall i, (i < M)%nat -> length (nth i (machine_times M N records x) []) = N.
  Proof. destruct times_part as [L H]. split; auto. intros i Hi. rewrite H by auto. now rewrite map_length, seq_length. Qed.
  Lemma times_entry i j : (i < M)%nat -> (j < N)%nat -> table (machine_times M N records x) i j = start p j i.
  Proof. intros Hi Hj. apply (tm_part N 0); auto. apply times_part. Qed.
End Flow.

Section Start.
  Variables (M N : nat) (p : nat -> nat -> R).
  Lemma start_machine i j : start p j i + p i j <= start p (S j) i.
  Proof. destruct i as [|i]; cbn [start colS]; [lra|apply Rmax_l]. Qed.
  Lemma start_job i j : start p j i + p i j <= start p j (S i).
  Proof. destruct j as [|j]; cbn [start col0 colS]; [lra|apply Rmax_r]. Qed.
  Lemma start_least s : schedule M N p s -> forall j i, (i < M)%nat -> (j < N)%nat -> start p j i <= s i j.
  Proof.
    intros (H0 & H1 & H2). induction j as [|j IHj].
    - induction i as [|i IHi]; intros Hi Hj; cbn [start col0]; [now apply H0|]. specialize (IHi ltac:(lia) Hj). cbn [start] in IHi. pose proof (H2 i 0%nat Hi Hj). lra.
    - induction i as [|i IHi]; intros Hi Hj; cbn [start colS]; [pose proof (IHj 0%nat Hi ltac:(lia)); pose proof (H1 0%nat j Hi Hj); lra|]. specialize (IHi ltac:(lia) Hj). cbn [start] in IHi. apply Rmax_lub; [pose proof (IHj (S i) Hi ltac:(lia)); pose proof (H1 (S i) j Hi Hj); lra|pose proof (H2 i (S j) Hi Hj); lra].
  Qed.
  Hypothesis Hp : forall i j, (i < M)%nat -> (j < N)%nat -> 0 <= p i j.
  Lemma start_nonneg j : forall i, (i < M)%nat -> (j < N)%nat -> 0 <= start p j i.
  Proof.
    induction j as [|j IHj].
    - induction i as [|i IHi]; intros Hi Hj; [cbn; lra|]. pose proof (start_job i 0). pose proof (Hp i 0%nat ltac:(lia) Hj). specialize (IHi ltac:(lia) Hj). lra.
    - intros i Hi Hj. pose proof (start_machine i j). pose proof (Hp i j Hi ltac:(lia)). specialize (IHj i Hi ltac:(lia)). lra.
  Qed.
  Lemma finish_mono i j i' j' : (i <= i' < M)%nat -> (j <= j' < N)%nat -> start p j i + p i j <= start p j' i' + p i' j'.
  Proof.
    intros [Hi1 Hi2] [Hj1 Hj2]. assert (A : start p j i + p i j <= start p j' i + p i j').
    { revert Hj2. induction Hj1 as [|k Hk IH]; intros Hj2; [lra|]. specialize (IH ltac:(lia)). pose proof (start_machine i k). pose proof (Hp i (S k) ltac:(lia) Hj2). lra. }
    clear Hj1. revert Hi2. induction Hi1 as [|k Hk IH]; intros Hi2; [auto|]. specialize (IH ltac:(lia)). pose proof (start_job k j'). pose proof (Hp (S k) j' Hi2 Hj2). lra.
  Qed.
End Start.

(** C89: with non-negative processing times the computed starting times are a schedule, and whatever the times no schedule starts any operation earlier *)
Theorem C89_flowshop_schedule : forall M N records x, (1 <= M)%nat -> (1 <= N)%nat ->
  let p := job_times records x in let s := table (machine_times M N records x) in
  ((forall i j, (i < M)%nat -> (j < N)%nat -> 0 <= p i j) -> schedule M N p s) /\
  forall s', schedule M N p s' -> forall i j, (i < M)%nat -> (j < N)%nat -> s i j <= s' i j.
Proof.
  intros M N records x HM HN p s. assert (E : forall i j, (i < M)%nat -> (j < N)%nat -> s i j = start p j i) by (intros; now apply times_entry). split.
  - intros Hp. split; [|split]; intros i j Hi Hj.
    + rewrite E by auto. now apply (start_nonneg M N).
    + rewrite !E by lia. apply start_machine.
    + rewrite !E by lia. apply start_job.
  - intros s' H i j Hi Hj. rewrite E by auto. now apply (start_least M N p s' H).
Qed.
Lemma last_nth {A} (d : A) l : last l d = nth (length l - 1) l d.
Proof. destruct l as [|a l]; [reflexivity|]. cbn [length]. rewrite Nat.sub_succ, Nat.sub_0_r. revert a. induction l as [|b l IH]; intros a; [reflexivity|]. change (last (a :: b :: l) d) with (last (b :: l) d). now rewrite IH. Qed.
(** C89: the objective value is the time the last operation finishes: no operation of the computed schedule finishes later, and no schedule for the same sequence has all its operations finished earlier *)
Theorem C89_flowshop_makespan : forall M N records x, (1 <= M)%nat -> (1 <= N)%nat -> length records = M -> length x = N ->
  let p := job_times records x in (forall i j, (i < M)%nat -> (j < N)%nat -> 0 <= p i j) ->
  (forall i j, (i < M)%nat -> (j < N)%nat -> table (machine_times M N records x) i j + p i j <= makespan M N records x) /\
  (exists i j, (i < M)%nat /\ (j < N)%nat /\ makespan M N records x = table (machine_times M N records x) i j + p i j) /\
  forall s' T, schedule M N p s' -> (forall i j, (i < M)%nat -> (j < N)%nat -> s' i j + p i j <= T) -> makespan M N records x <= T.
Proof.
  intros M N records x HM HN HR HX p Hp. assert (E : forall i j, (i < M)%nat -> (j < N)%nat -> table (machine_times M N records x) i j = start p j i) by (intros; now apply times_entry).
  assert (EM : makespan M N records x = table (machine_times M N records x) (M - 1) (N - 1) + p (M - 1)%nat (N - 1)%nat).
  { destruct (times_shape M N records x HM HN) as [L1 L2]. unfold makespan, table, p, job_times. rewrite !last_nth, L1, HR, HX, L2 by lia. reflexivity. }
  split; [|split].
  - intros i j Hi Hj. rewrite EM, !E by lia. apply (finish_mono M N); auto; lia.
  - exists (M - 1)%nat, (N - 1)%nat. split; [lia|]. split; [lia|auto].
  - intros s' T H HT. rewrite EM, E by lia. pose proof (start_least M N p s' H (N - 1) (M - 1) ltac:(lia) ltac:(lia)). pose proof (HT (M - 1)%nat (N - 1)%nat ltac:(lia) ltac:(lia)). lra.
Qed.
(** the declared upper bound is the number of machines: every sequence containing all jobs leaves the declared bounds when there are at least two jobs more than machines *)
Theorem C89_flowshop_bounds_refuted : forall M N (x : list nat), (M + 2 <= N)%nat -> (forall k, (k < N)%nat -> In k x) -> exists k, In k x /\ (snd (flowshop_bounds M N) < k)%nat.
Proof. intros M N x H HX. exists (N - 1)%nat. split; [apply HX; lia|cbn; lia]. Qed.

(** ** knapsack *)
(** the total of the values of the items chosen *)
Definition total (V : list R) (items : list nat) : R := rsum (map (fun i => nth i V 0) items).
Definition chosen (x : list bool) (items : list nat) : Prop := NoDup items /\ forall i, In i items <-> (i < length x)%nat /\ nth i x false = true.
Lemma picked_from V x : length V = length x -> picked V x = total V (filter (fun i => nth i x false) (seq 0 (length x))).
Proof.
  unfold picked, total. revert V. induction x as [|b x IH]; intros [|v V] H; cbn in H; try discriminate; [reflexivity|]. specialize (IH V ltac:(lia)). cbn [map2 length seq filter nth].
  assert (EF : filter (fun i => nth i (b :: x) false) (seq 1 (length x)) = map S (filter (fun i => nth i x false) (seq 0 (length x)))). { rewrite <- seq_shift. generalize (seq 0 (length x)). induction l as [|k l IHl]; [reflexivity|]. cbn [map filter]. change (nth (S k) (b :: x) false) with (nth k x false). destruct (nth k x false); cbn [map]; now rewrite IHl. }
  cbn [nth] in EF. destruct b; cbn [map]; rewrite EF, map_map; unfold rsum in *; cbn [fold_right nth]; rewrite IH; ring.
Qed.
Lemma chosen_perm x items V : chosen x items -> total V items = total V (filter (fun i => nth i x false) (seq 0 (length x))).
Proof.
  intros [HN HI]. assert (HP : Permutation.Permutation items (filter (fun i => nth i x false) (seq 0 (length x)))).
  { apply Permutation.NoDup_Permutation; auto; [apply NoDup_filter, seq_NoDup|]. intros i. rewrite HI, filter_In, in_seq. intuition lia. }
  unfold total. apply (Permutation.Permutation_map (fun i => nth i V 0)) in HP. unfold rsum. induction HP; cbn; auto; lra.
Qed.
(** C89: whatever way the chosen items are listed, F is minus their profit and the constraint is satisfied exactly when they fit *)
Theorem C89_knapsack : forall P W C x items, length P = length x -> length W = length x -> chosen x items ->
  knap_f P x = - total P items /\ (knap_g W C x <= 0 <-> total W items <= C) /\ knap_count x = length items.
Proof.
  intros P W C x items HP HW HC. unfold knap_f, knap_g. rewrite !picked_from, <- !(chosen_perm x items) by auto. split; auto. split; [lra|].
  destruct HC as [HN HI]. assert (HPm : Permutation.Permutation items (filter (fun i => nth i x false) (seq 0 (length x)))).
  { apply Permutation.NoDup_Permutation; auto; [apply NoDup_filter, seq_NoDup|]. intros i. rewrite HI, filter_In, in_seq. intuition lia. }
  apply Permutation.Permutation_length in HPm. rewrite HPm. unfold knap_count. clear. induction x as [|b x IH]; [reflexivity|]. cbn [length seq filter nth].
  assert (EF : length (filter (fun i => nth i (b :: x) false) (seq 1 (length x))) = length (filter (fun i => nth i x false) (seq 0 (length x)))). { rewrite <- seq_shift. generalize (seq 0 (length x)). induction l as [|k l IHl]; [reflexivity|]. cbn [map filter]. change (nth (S k) (b :: x) false) with (nth k x false). destruct (nth k x false); cbn [length]; now rewrite IHl. }
  cbn [nth] in EF. destruct b; cbn [length]; rewrite EF, IH; reflexivity.
Qed.
(** C89: a Knapsack problem evaluates every non-empty set of solutions *)
Theorem C89_knapsack_evaluates : forall X (f g : X -> flt) n_items xs, exists F,
  evaluate (knap_conf n_items) (fun names ys => Some (vectorized (knap_out f g) names ys)) xs false None = Some F /\
  dget F "F" = Some (RRows (map (fun x => [f x]) xs)) /\ dget F "G" = Some (RRows (map (fun x => [g x]) xs)).
Proof.
  intros X f g n xs. assert (L : forall h : X -> flt, length (concat (map (fun x => [h x]) xs)) = (length xs * 1)%nat) by (intros h; induction xs; cbn in *; [auto|now rewrite IHxs]).
  assert (RS : forall h : X -> flt, reshape (length xs) 1 (concat (map (fun x => [h x]) xs)) = map (fun x => [h x]) xs) by (intros h; clear L; induction xs as [|y xs IH]; [reflexivity|]; cbn in *; now rewrite IH).
  assert (FX : forall h : X -> flt, map (fix_nan (knap_conf n)) (map (fun x => [h x]) xs) = map (fun x => [h x]) xs) by (intros h; rewrite <- (map_id (map (fun x => [h x]) xs)) at 2; apply map_ext; reflexivity).
  unfold evaluate. change (default_names (knap_conf n)) with ["F"%string; "G"%string]. unfold vectorized, knap_out. cbn [fold_left fst snd].
  change (dset (dset (dset (dset [] "F"%string None) "G"%string None) "F"%string (Some (UArr (map (fun x : X => [f x]) xs)))) "G"%string (Some (UArr (map (fun x : X => [g x]) xs)))) with [("F"%string, Some (UArr (map (fun x : X => [f x]) xs))); ("G"%string, Some (UArr (map (fun x : X => [g x]) xs)))].
  unfold format_dict. cbn [fmt_set]. unfold fmt_value. change (row_size (knap_conf n) "F"%string) with (Some 1%nat). change (row_size (knap_conf n) "G"%string) with (Some 1%nat). cbv iota. rewrite !L, !Nat.eqb_refl, !RS.
  cbn [option_map fold_left]. set (d := [_; _]). change (dget d "F"%string) with (Some (map (fun x : X => [f x]) xs)). cbv iota. change (dget d "G"%string) with (Some (map (fun x : X => [g x]) xs)). cbv iota. unfold post, d. cbn [map fst snd finish option_map all_some]. rewrite !FX. eexists. split; [reflexivity|]. cbn. auto.
Qed.
(** the two-objective variant declares one objective: evaluating any non-empty set of solutions raises *)
Theorem C89_mo_knapsack_refuted : forall X (f1 f2 g : X -> flt) n_items xs single names, xs <> [] -> evaluate (knap_conf n_items) (fun names ys => Some (vectorized (mo_knap_out f1 f2 g) names ys)) xs single names = None.
Proof.
  intros X f1 f2 g n xs single names HX. unfold evaluate. set (nm := match names with Some l => l | None => _ end). assert (E : format_dict (knap_conf n) (length xs) nm (vectorized (mo_knap_out f1 f2 g) nm xs) = None).
  { unfold format_dict. rewrite (fmt_set_None _ _ "F"%string (UArr (map (fun x => [f1 x; f2 x]) xs))); [reflexivity| |].
    - apply dget_In. destruct (vectorized_spec (mo_knap_out f1 f2 g) nm xs) as [_ H]; [cbn; repeat constructor; cbn; intuition discriminate|]. rewrite H. reflexivity.
    - unfold fmt_value. cbn [row_size String.eqb Ascii.eqb Bool.eqb p_obj knap_conf]. assert (L : length (concat (map (fun x => [f1 x; f2 x]) xs)) = (length xs * 2)%nat) by (clear; induction xs; cbn in *; [auto|now rewrite IHxs]). rewrite L. destruct (Nat.eqb_spec (length xs * 2) (length xs * 1)) as [E|]; [|reflexivity]. destruct xs; [congruence|cbn in E; lia]. }
  now rewrite E.
Qed.
(** the hypotheses of the theorems above are met *)
Example C89_meets : route_ok [[0; 0]; [3; 0]; [3; 4]] [2%nat; 0%nat; 1%nat] /\ cities_ok 2 [[0; 0]; [3; 0]; [3; 4]] /\
  machine_times 2 2 [[1; 3]; [2; 1]] [1%nat; 0%nat] = [[0; 3]; [3; 4]] /\ makespan 2 2 [[1; 3]; [2; 1]] [1%nat; 0%nat] = 6 /\ chosen [true; false; true] [2%nat; 0%nat].
Proof.
  assert (ET : machine_times 2 2 [[1; 3]; [2; 1]] [1%nat; 0%nat] = [[0; 3]; [3; 4]]).
  { unfold machine_times, first_job, next_job, app_row, tm, proc. cbn [Nat.sub seq fold_left nth repeat upd app]. rewrite Rmax_left by lra. repeat f_equal; ring. }
  split; [split; [discriminate|repeat constructor; cbn; lia]|]. split; [repeat constructor|]. split; auto. split; [unfold makespan; rewrite ET; cbn; lra|].
  split; [repeat constructor; cbn; intuition discriminate|]. intros i. cbn [length]. split.
  - intros [<-|[<-|[]]]; cbn; split; auto; lia.
  - intros [H1 H2]. destruct i as [|[|[|i]]]; cbn in *; try discriminate; auto; lia.
Qed.
