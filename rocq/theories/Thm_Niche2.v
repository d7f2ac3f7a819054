(** * C117: NicheGA's epsilon-clearing survival *)
From Coq Require Import List Arith Bool ZArith QArith Lqa Lia Permutation Sorted.
From Verif Require Import ListAux M_Roulette M_Norm M_Niche Thm_Norm Thm_RMetric Thm_Roulette Thm_Niche.
Import ListNotations.
Local Open Scope nat_scope.

(** ** specification: at least as good (less violation, or the same and no larger objective), and nearer than epsilon *)
Definition no_worse (a b : nini) : Prop := (ni_cv a < ni_cv b)%Q \/ (ni_cv a == ni_cv b)%Q /\ (ni_f a <= ni_f b)%Q.
Definition near (dist : list Q -> list Q -> Q) (eps : Q) (a b : nini) : Prop := (dist (ni_x a) (ni_x b) < eps)%Q.

Lemma ni_le_iff a b : ni_le a b = true <-> no_worse a b.
Proof.
  unfold ni_le, no_worse. destruct (Qle_bool (ni_cv b) (ni_cv a)) eqn:E1; cbn [negb].
  - apply Qle_bool_iff in E1. destruct (Qle_bool (ni_cv a) (ni_cv b)) eqn:E2; cbn [negb].
    + apply Qle_bool_iff in E2. rewrite Qle_bool_iff. split; [intros; right; split; auto; lra|intros [H|[_ H]]; auto; lra].
    + assert (~ (ni_cv a <= ni_cv b)%Q) by (rewrite <- Qle_bool_iff; congruence). split; [discriminate|intros [H'|[H' _]]; lra].
  - assert (~ (ni_cv b <= ni_cv a)%Q) by (rewrite <- Qle_bool_iff; congruence). split; auto. intros _. left. lra.
Qed.
Lemma no_worse_total a b : no_worse a b \/ no_worse b a.
Proof. unfold no_worse. destruct (Qlt_le_dec (ni_cv a) (ni_cv b)); [auto|]. destruct (Qlt_le_dec (ni_cv b) (ni_cv a)); [auto|]. destruct (Qlt_le_dec (ni_f a) (ni_f b)); [left|right]; right; split; lra. Qed.
Lemma no_worse_trans a b c : no_worse a b -> no_worse b c -> no_worse a c.
Proof. unfold no_worse. intros [H|[H1 H2]] [K|[K1 K2]]; [left|left|left|right; split]; lra. Qed.
Lemma no_worse_core a b c d : ni_core a = ni_core c -> ni_core b = ni_core d -> no_worse a b -> no_worse c d.
Proof. unfold ni_core, no_worse. intros E1 E2. injection E1 as _ E1 E1'. injection E2 as _ E2 E2'. now rewrite E1, E1', E2, E2'. Qed.
Lemma ni_insert_perm a l : Permutation (a :: l) (ni_insert a l).
Proof. induction l as [|b l IH]; cbn [ni_insert]; auto. destruct (ni_le a b); auto. etransitivity; [apply perm_swap|]. now constructor. Qed.
Lemma ni_sort_perm l : Permutation l (ni_sort l).
Proof. induction l as [|a l IH]; cbn; auto. etransitivity; [|apply ni_insert_perm]. now constructor. Qed.
Lemma ni_insert_sorted a l : StronglySorted no_worse l -> StronglySorted no_worse (ni_insert a l).
Proof.
  induction 1 as [|b l Hl IH Hb]; cbn [ni_insert]; [repeat constructor|]. destruct (ni_le a b) eqn:E.
  - apply ni_le_iff in E. constructor; [constructor; auto|]. constructor; [exact E|]. eapply Forall_impl; [|exact Hb]. intros c Hc. now apply (no_worse_trans a b c).
  - constructor; [exact IH|]. assert (no_worse b a) by (destruct (no_worse_total a b) as [H|H]; auto; apply ni_le_iff in H; congruence).
    apply Forall_forall. intros c Hc. apply (Permutation_in c (Permutation_sym (ni_insert_perm a l))) in Hc. destruct Hc as [<-|Hc]; auto. rewrite Forall_forall in Hb. auto.
Qed.
Lemma ni_sort_sorted l : StronglySorted no_worse (ni_sort l).
Proof. induction l as [|a l IH]; cbn; [constructor|]. now apply ni_insert_sorted. Qed.

Lemma sorted_pop pop : length (fitness_survival pop) = length pop /\ map ni_core (fitness_survival pop) = map ni_core (ni_sort pop) /\ map iter_is_one (fitness_survival pop) = map iter_is_one (ni_sort pop).
Proof.
  unfold fitness_survival. assert (HL : length (ni_sort pop) = length pop) by (symmetry; apply Permutation_length, ni_sort_perm). rewrite length_map2, seq_length, HL, Nat.min_id. split; auto.
  clear -HL. revert HL. generalize (ni_sort pop) as l. generalize (length pop) as n. generalize 0 as s. intros s n l. revert s n. induction l as [|a l IH]; intros s [|n] HL; try discriminate; cbn [seq map2 map]; auto.
  injection HL as HL. destruct (IH (S s) n HL) as [-> ->]. auto.
Qed.
Lemma survival_eq dist eps nmax ns pop : pop <> [] -> niche_survival dist eps nmax ns pop =
  ni_loop (fun p q => dist (ni_x (nth p (fitness_survival pop) nini0)) (ni_x (nth q (fitness_survival pop) nini0))) eps nmax (Nat.min ns (length pop)) (Nat.min ns (length pop)) (ns_init (fitness_survival pop)).
Proof. intros H. destruct pop; [congruence|reflexivity]. Qed.
Section Top.
  Variables (dist : list Q -> list Q -> Q) (eps : Q) (nmax : option nat) (ns : nat) (pop : list nini).
  Let sorted := fitness_survival pop.
  Let D p q := dist (ni_x (nth p sorted nini0)) (ni_x (nth q sorted nini0)).
  Notation SV st := (cl_S (ns_c st)).
  Lemma sorted_len : length sorted = length pop.
  Proof. apply sorted_pop. Qed.
  Lemma sorted_core j : ni_core (nth j sorted nini0) = ni_core (nth j (ni_sort pop) nini0).
  Proof. rewrite <- !(map_nth ni_core). unfold sorted. destruct (sorted_pop pop) as (_ & E & _). now rewrite E. Qed.
  Lemma sorted_nw p q : p <= q -> q < length pop -> no_worse (nth p sorted nini0) (nth q sorted nini0).
  Proof.
    intros Hp Hq. apply (no_worse_core (nth p (ni_sort pop) nini0) (nth q (ni_sort pop) nini0)); try (symmetry; apply sorted_core).
    destruct (Nat.eq_dec p q) as [->|Hne]; [right; split; lra|]. apply (StronglySorted_nth no_worse (ni_sort pop) nini0 p q (ni_sort_sorted pop)); [lia|]. now rewrite <- (Permutation_length (ni_sort_perm pop)).
  Qed.
  Lemma pop_in b : In b pop -> exists j, j < length pop /\ ni_core (nth j sorted nini0) = ni_core b.
  Proof.
    intros Hb. apply (Permutation_in b (ni_sort_perm pop)) in Hb. apply (In_nth _ _ nini0) in Hb as (j & Hj & <-). exists j. rewrite sorted_core. split; auto. now rewrite (Permutation_length (ni_sort_perm pop)).
  Qed.
  Lemma fresh_stale : Forall (fun a => ni_iter a <> Some 1) pop -> forall j, j < length sorted -> ~ stale sorted j.
  Proof.
    intros HF j Hj Hs. unfold stale in Hs. rewrite <- (map_nth iter_is_one) in Hs. unfold sorted in Hs. destruct (sorted_pop pop) as (HL & _ & E). rewrite E, map_nth in Hs.
    fold sorted in HL. rewrite HL in Hj. assert (K : In (nth j (ni_sort pop) nini0) pop) by (apply (Permutation_in _ (Permutation_sym (ni_sort_perm pop))), nth_In; rewrite <- (Permutation_length (ni_sort_perm pop)); auto).
    rewrite Forall_forall in HF. apply (HF _ K). unfold iter_is_one in Hs. destruct (ni_iter (nth j (ni_sort pop) nini0)) as [[|[|?]]|]; congruence.
  Qed.
  (** what the loop leaves *)
  Lemma survival_inv : nmax <> Some 0 -> pop <> [] -> exists L e st, niche_survival dist eps nmax ns pop = Some (gather nini0 (ns_pop st) (SV st)) /\
    ninv D eps nmax sorted L e st /\ length (SV st) = Nat.min ns (length pop) /\ pre L st.
  Proof.
    intros Hm Hne. rewrite survival_eq by auto. fold sorted. fold D. destruct (init_inv D eps nmax sorted) as [HI HP].
    destruct (loop_inv D eps nmax sorted (Nat.min ns (length pop)) (Nat.min ns (length pop)) Hm [] 0 (ns_init sorted) HI HP) as (L & e & st & E & K); [rewrite sorted_len; lia|lia|cbn; lia|].
    exists L, e, st. split; [exact E|]. exact K.
  Qed.
End Top.

(** the labels of round one come first *)
Lemma round_one L : rounds L -> L <> [] -> exists k, 1 <= k <= length L /\ (forall p, p < k -> lb L p = (1, S p)) /\ forall p, k <= p -> p < length L -> 2 <= fst (lb L p).
Proof.
  intros [R0 R1] HLn. assert (HL0 : 0 < length L) by (destruct L; [congruence|cbn; lia]). specialize (R0 HLn). clear HLn. rename R0 into R0'.
unfold lb. revert HL0 R0' R1. induction L as [|x L IH] using rev_ind; intros HL0 R0' R1; [cbn in HL0; lia|]. rewrite app_length in *. cbn [length] in *.
      destruct L as [|y L']; [exists 1; cbn in *; split; [lia|]; split; [intros p Hp; replace p with 0 by lia; cbn; auto|intros; lia]|]. set (L := y :: L') in *.
      assert (HLL : 0 < length L) by (cbn; lia). destruct IH as (k & Hk & I1 & I2); [auto|now rewrite app_nth1 in R0' by auto|intros p Hp; specialize (R1 p ltac:(lia)); now rewrite !app_nth1 in R1 by lia|].
      assert (HN : label_next (nth (length L - 1) L (0, 0)) x) by (specialize (R1 (length L - 1) ltac:(lia)); rewrite app_nth1 in R1 by lia; replace (S (length L - 1)) with (length L) in R1 by lia; now rewrite nth_middle in R1).
      destruct (Nat.eq_dec k (length L)) as [->|Hne].
      - pose proof (I1 (length L - 1) ltac:(lia)) as K. rewrite K in HN. destruct HN as [->| ->]; cbn [fst snd].
        + exists (S (length L)). split; [lia|]. split; [|intros; lia]. intros p Hp. destruct (Nat.eq_dec p (length L)) as [->|]; [rewrite nth_middle; f_equal; lia|rewrite app_nth1 by lia; apply I1; lia].
        + exists (length L). split; [lia|]. split; [intros p Hp; rewrite app_nth1 by lia; apply I1; lia|]. intros p Hp Hp'. replace p with (length L) by lia. rewrite nth_middle. cbn. lia.
      - exists k. split; [lia|]. split; [intros p Hp; rewrite app_nth1 by lia; apply I1; lia|]. intros p Hp Hp'. destruct (Nat.eq_dec p (length L)) as [->|]; [|rewrite app_nth1 by lia; apply I2; lia].
        rewrite nth_middle. pose proof (I2 (length L - 1) ltac:(lia) ltac:(lia)). destruct HN as [->| ->]; cbn [fst]; lia.
Qed.
Section Thms.
  Variables (dist : list Q -> list Q -> Q) (eps : Q) (nmax : option nat) (ns : nat) (pop out : list nini).
  Hypothesis Hm : nmax <> Some 0.
  Hypothesis Hrun : niche_survival dist eps nmax ns pop = Some out.
  Notation SV st := (cl_S (ns_c st)).
  Let sorted := fitness_survival pop.
  Let D p q := dist (ni_x (nth p sorted nini0)) (ni_x (nth q sorted nini0)).
  Lemma run_inv : out <> [] -> exists L e st, out = gather nini0 (ns_pop st) (SV st) /\ ninv D eps nmax sorted L e st /\ length out = length L /\ pre L st /\ length (SV st) = length L /\ pop <> [].
  Proof.
    intros Hne. assert (Hp : pop <> []) by (intros E; rewrite E in Hrun; cbn in Hrun; congruence). destruct (survival_inv dist eps nmax ns pop Hm Hp) as (L & e & st & E & HI & HL & HP). exists L, e, st.
    assert (Eo : out = gather nini0 (ns_pop st) (SV st)) by congruence. split; auto. split; auto. pose proof (i_L _ _ _ _ _ _ _ HI) as HL'. split; [rewrite Eo, length_gather; lia|]. split; auto.
  Qed.
  Lemma out_im st p : out = gather nini0 (ns_pop st) (SV st) -> p < length (SV st) -> nth p out nini0 = im st p.
  Proof. intros -> Hp. now rewrite nth_gather. Qed.
  Lemma im_core L e st p : ninv D eps nmax sorted L e st -> ni_core (im st p) = ni_core (nth (ps st p) sorted nini0).
  Proof. intros HI. apply (i_core _ _ _ _ _ _ _ HI). Qed.
  Lemma core_x a b : ni_core a = ni_core b -> ni_x a = ni_x b.
  Proof. unfold ni_core. congruence. Qed.
  Lemma D_im L e st p q : ninv D eps nmax sorted L e st -> D (ps st p) (ps st q) = dist (ni_x (im st p)) (ni_x (im st q)).
  Proof. intros HI. unfold D. now rewrite <- (core_x _ _ (im_core L e st p HI)), <- (core_x _ _ (im_core L e st q HI)). Qed.
  Lemma close_near p q : ni_close D eps p q = true <-> (D p q < eps)%Q.
  Proof. unfold ni_close. rewrite negb_true_iff. split; intros H. - destruct (Qlt_le_dec (D p q) eps); auto. apply Qle_bool_iff in q0. congruence. - destruct (Qle_bool eps (D p q)) eqn:E; auto. apply Qle_bool_iff in E. lra. Qed.
  Lemma bd L e st p : ninv D eps nmax sorted L e st -> p < length (SV st) -> ps st p < length pop.
  Proof. intros HI Hp. pose proof (i_bd _ _ _ _ _ _ _ HI) as B. rewrite Forall_forall in B. unfold sorted in B. rewrite sorted_len in B. apply B. now apply nth_In. Qed.

  Lemma t_first a rest : out = a :: rest -> ni_iter a = Some 1 /\ ni_rank a = Some 1 /\ ni_niche a = Some 1 /\ forall b, In b pop -> no_worse a b.
  Proof.
    intros E. destruct run_inv as (L & e & st & Eo & HI & HL & HP & HSL & Hp); [congruence|]. assert (HL0 : 0 < length L) by (rewrite <- HL, E; cbn; lia).
    assert (Ea : a = im st 0) by (rewrite <- (out_im st 0 Eo) by lia; now rewrite E). assert (Hl0 : lb L 0 = (1, 1)) by (apply (i_rounds _ _ _ _ _ _ _ HI); destruct L; [cbn in HL0; lia|congruence]).
    destruct (i_lab _ _ _ _ _ _ _ HI 0 HL0) as [K1 K2]. rewrite Hl0 in K1, K2. pose proof (i_niche1 _ _ _ _ _ _ _ HI 0 HL0) as K3. rewrite Hl0 in K3. subst a. split; auto. split; auto. split; [now apply K3|].
    intros b Hb. destruct (pop_in pop b Hb) as (j & Hj & Ej). apply (no_worse_core (nth (ps st 0) sorted nini0) (nth j sorted nini0)); [symmetry; eapply im_core; eauto|exact Ej|]. apply sorted_nw; auto.
    rewrite (i_first _ _ _ _ _ _ _ HI) by lia. lia.
  Qed.
  Lemma t_survivors : pop <> [] -> exists rest, length out = Nat.min ns (length pop) /\ Permutation (map ni_core out ++ rest) (map ni_core pop).
  Proof.
    intros Hp. destruct (survival_inv dist eps nmax ns pop Hm Hp) as (L & e & st & E & HI & HL & _). assert (Eo : out = gather nini0 (ns_pop st) (SV st)) by congruence.
    exists (map ni_core (gather nini0 (ns_pop st) (filter (fun j => negb (if in_dec Nat.eq_dec j (SV st) then true else false)) (seq 0 (length pop))))).
    split; [rewrite Eo, length_gather; auto|]. rewrite Eo. rewrite <- map_app. unfold gather. rewrite <- map_app. rewrite map_map. rewrite (map_ext _ _ (i_core _ _ _ _ _ _ _ HI)).
    transitivity (map (fun j => ni_core (nth j (fitness_survival pop) nini0)) (seq 0 (length pop))).
    - apply Permutation_map. apply NoDup_Permutation; [|apply seq_NoDup|].
      + apply NoDup_app_iff. split; [apply (i_nd _ _ _ _ _ _ _ HI)|]. split; [apply NoDup_filter, seq_NoDup|]. intros x Hx Hx'. apply filter_In in Hx' as [_ Hx']. destruct (in_dec Nat.eq_dec x (SV st)); [discriminate|contradiction].
      + intros x. rewrite in_app_iff, filter_In, in_seq. pose proof (i_bd _ _ _ _ _ _ _ HI) as B. rewrite Forall_forall in B. rewrite sorted_len in B. destruct (in_dec Nat.eq_dec x (SV st)) as [H|H]; cbn.
        * specialize (B x H). intuition lia.
        * intuition.
    - rewrite <- (map_map (fun j => nth j (fitness_survival pop) nini0) ni_core). pose proof (gather_seq nini0 (fitness_survival pop)) as G. rewrite sorted_len in G. unfold gather in G. rewrite G.
      destruct (sorted_pop pop) as (_ & -> & _). apply Permutation_map, Permutation_sym, ni_sort_perm.
  Qed.
  Lemma t_rounds : exists L, map ni_iter out = map (fun l => Some (fst l)) L /\ map ni_rank out = map (fun l => Some (snd l)) L /\ rounds L /\ forall m, nmax = Some m -> Forall (fun l => snd l <= m) L.
  Proof.
    destruct out as [|a0 o] eqn:EO; [exists []; cbn; split; auto; split; auto; split; [split; [congruence|cbn; intros; lia]|auto]|]. rewrite <- EO in *.
    destruct run_inv as (L & e & st & Eo & HI & HL & HP & HSL & Hp); [congruence|]. exists L.
    assert (G : forall {B} (f : nini -> option B) (g : nat * nat -> option B), (forall p, p < length L -> f (im st p) = g (lb L p)) -> map f out = map g L).
    { intros B f g H. apply (nth_ext _ _ (f nini0) (g (0, 0))); [now rewrite !map_length|]. rewrite map_length. intros p Hq. rewrite !map_nth. rewrite (out_im st p Eo) by lia. apply H. lia. }
    split; [apply G; intros p Hq; now apply (i_lab _ _ _ _ _ _ _ HI)|]. split; [apply G; intros p Hq; now apply (i_lab _ _ _ _ _ _ _ HI)|]. split; [apply (i_rounds _ _ _ _ _ _ _ HI)|].
    intros m Em. apply Forall_forall. intros l Hl. apply (In_nth _ _ (0, 0)) in Hl as (p & Hq & <-). apply (i_max _ _ _ _ _ _ _ HI m Em p Hq).
  Qed.
  Lemma t_apart p q : p < q -> q < length out -> ni_iter (nth p out nini0) = ni_iter (nth q out nini0) -> ~ near dist eps (nth p out nini0) (nth q out nini0) /\ no_worse (nth p out nini0) (nth q out nini0).
  Proof.
    intros Hpq Hq Hi. destruct run_inv as (L & e & st & Eo & HI & HL & HP & HSL & Hp); [intros E; rewrite E in Hq; cbn in Hq; lia|].
    rewrite !(out_im st _ Eo) in * by lia. destruct (i_lab _ _ _ _ _ _ _ HI p ltac:(lia)) as [K1 _]. destruct (i_lab _ _ _ _ _ _ _ HI q ltac:(lia)) as [K2 _]. rewrite K1, K2 in Hi.
    destruct (i_sep _ _ _ _ _ _ _ HI p q Hpq ltac:(lia) ltac:(congruence)) as [S1 S2]. split.
    - unfold near. rewrite <- (D_im L e st p q HI). intros K. apply close_near in K. congruence.
    - apply (no_worse_core (nth (ps st p) sorted nini0) (nth (ps st q) sorted nini0)); [symmetry; eapply im_core; eauto|symmetry; eapply im_core; eauto|]. apply sorted_nw; [lia|]. eapply bd; eauto. lia.
  Qed.
  Lemma t_cover r r' : nmax = None -> 1 <= r < r' -> (exists a, In a out /\ ni_iter a = Some r') -> forall b, In b pop ->
    exists a i, In a out /\ ni_iter a = Some i /\ ((i <= r /\ ni_core a = ni_core b) \/ (i = r /\ near dist eps a b /\ no_worse a b)).
  Proof.
    intros HN Hr (a & Ha & Ea) b Hb. destruct run_inv as (L & e & st & Eo & HI & HL & HP & HSL & Hp); [intros E; now rewrite E in Ha|].
    apply (In_nth _ _ nini0) in Ha as (p & Hp' & <-). rewrite (out_im st p Eo) in Ea by lia. destruct (i_lab _ _ _ _ _ _ _ HI p ltac:(lia)) as [K1 _]. pose proof (i_cur _ _ _ _ _ _ _ HI p ltac:(lia)) as [K2 _].
    assert (Hr' : fst (lb L p) = r') by congruence. destruct (pop_in pop b Hb) as (j & Hj & Ej).
    destruct (i_cover _ _ _ _ _ _ _ HI HN r ltac:(lia) j) as [(q & Hq & C1 & C2)|(q & Hq & C1 & C2 & C3)]; [unfold sorted; rewrite sorted_len; auto| |].
    - exists (im st q), (fst (lb L q)). split; [rewrite <- (out_im st q Eo) by lia; apply nth_In; lia|]. split; [now apply (i_lab _ _ _ _ _ _ _ HI)|]. left. split; auto. rewrite (im_core L e st q HI), C1. exact Ej.
    - exists (im st q), r. split; [rewrite <- (out_im st q Eo) by lia; apply nth_In; lia|]. split; [rewrite <- C1; now apply (i_lab _ _ _ _ _ _ _ HI)|]. right. split; auto. split.
      + apply close_near in C3. unfold near. rewrite (core_x _ _ (im_core L e st q HI)). unfold D in C3. now rewrite <- (core_x _ _ Ej).
      + apply (no_worse_core (nth (ps st q) sorted nini0) (nth j sorted nini0)); [symmetry; eapply im_core; eauto|exact Ej|]. apply sorted_nw; [lia|auto].
  Qed.
  Lemma opt_prefix : exists k, niche_opt out = firstn k out /\ map ni_rank (niche_opt out) = map Some (seq 1 k) /\ map ni_niche (niche_opt out) = map Some (seq 1 k) /\ k <= length out /\ (out <> [] -> 1 <= k).
  Proof.
    destruct out as [|a0 o] eqn:EO; [exists 0; cbn; repeat split; auto; congruence|]. rewrite <- EO in *.
    destruct run_inv as (L & e & st & Eo & HI & HL & HP & HSL & Hp); [congruence|]. destruct (i_rounds _ _ _ _ _ _ _ HI) as [R0 R1].
    assert (HL0 : 0 < length L) by (rewrite <- HL, EO; cbn; lia). assert (R0' : nth 0 L (0, 0) = (1, 1)) by (apply R0; destruct L; [cbn in HL0; lia|congruence]).
    destruct (round_one L (i_rounds _ _ _ _ _ _ _ HI)) as (k & Hk & G1 & G2); [destruct L; [cbn in HL0; lia|congruence]|]. exists k.
    assert (Eopt : niche_opt out = firstn k out).
    { unfold niche_opt. rewrite <- (firstn_skipn k out) at 1. rewrite filter_app.
      assert (F1 : filter iter_is_one (firstn k out) = firstn k out).
      { assert (F : Forall (fun a => iter_is_one a = true) (firstn k out)).
        { apply Forall_forall. intros a Ha. apply (In_nth _ _ nini0) in Ha as (p & Hpl & <-). rewrite firstn_length in Hpl. rewrite <- (firstn_skipn k out) in Eo. assert (Q : nth p (firstn k out) nini0 = nth p out nini0) by (rewrite <- (firstn_skipn k out) at 2; rewrite app_nth1; auto; rewrite firstn_length; lia).
          rewrite (firstn_skipn k out) in Eo. rewrite Q, (out_im st p Eo) by lia. destruct (i_lab _ _ _ _ _ _ _ HI p ltac:(lia)) as [K _]. rewrite G1 in K by lia. unfold iter_is_one. now rewrite K. }
        clear -F. induction F as [|a l Ha F IH]; cbn; auto. rewrite Ha. now rewrite IH. }
      assert (F2 : filter iter_is_one (skipn k out) = []).
      { assert (F : Forall (fun a => iter_is_one a = false) (skipn k out)).
        { apply Forall_forall. intros a Ha. apply (In_nth _ _ nini0) in Ha as (p & Hpl & <-). rewrite skipn_length in Hpl. assert (Q : nth p (skipn k out) nini0 = nth (k + p) out nini0) by (rewrite <- (firstn_skipn k out) at 2; rewrite app_nth2; rewrite firstn_length; [f_equal; lia|lia]).
          rewrite Q, (out_im st (k + p) Eo) by lia. destruct (i_lab _ _ _ _ _ _ _ HI (k + p) ltac:(lia)) as [K _]. pose proof (G2 (k + p) ltac:(lia) ltac:(lia)). unfold iter_is_one. rewrite K. destruct (fst (lb L (k + p))) as [|[|?]]; auto; lia. }
        clear -F. induction F as [|a l Ha F IH]; cbn; auto. now rewrite Ha. }
      now rewrite F1, F2, app_nil_r. }
    split; auto. rewrite Eopt.
    assert (M : forall (f : nini -> option nat), (forall p, p < k -> f (im st p) = Some (S p)) -> map f (firstn k out) = map Some (seq 1 k)).
    { intros f H. apply (nth_ext _ _ (f nini0) (Some 0)); [rewrite !map_length, firstn_length, seq_length; lia|]. rewrite map_length, firstn_length. intros p Hpl. rewrite !map_nth, seq_nth by lia.
      assert (Q : nth p (firstn k out) nini0 = nth p out nini0) by (rewrite <- (firstn_skipn k out) at 2; rewrite app_nth1; auto; rewrite firstn_length; lia). rewrite Q, (out_im st p Eo) by lia. apply H. lia. }
    split; [apply M; intros p Hpk; destruct (i_lab _ _ _ _ _ _ _ HI p ltac:(lia)) as [_ K]; now rewrite G1 in K|]. split; [apply M; intros p Hpk; pose proof (i_niche1 _ _ _ _ _ _ _ HI p ltac:(lia)) as K; rewrite G1 in K by auto; now apply K|]. split; [lia|lia].
  Qed.
  Lemma t_niche : Forall (fun a => ni_iter a <> Some 1) pop -> forall a i, In a out -> ni_iter a = Some i -> 2 <= i ->
    exists b, In b (niche_opt out) /\ ni_niche a = ni_niche b /\ forall c, In c (niche_opt out) ->
      (dist (ni_x a) (ni_x b) <= dist (ni_x a) (ni_x c))%Q /\ (dist (ni_x a) (ni_x b) == dist (ni_x a) (ni_x c) -> exists rb rc, ni_rank b = Some rb /\ ni_rank c = Some rc /\ (rb <= rc)%nat)%Q.
  Proof.
    intros HF a i Ha Ei Hi. destruct run_inv as (L & e & st & Eo & HI & HL & HP & HSL & Hp); [intros E; now rewrite E in Ha|].
    apply (In_nth _ _ nini0) in Ha as (p & Hp' & <-). rewrite (out_im st p Eo) in * by lia. destruct (i_lab _ _ _ _ _ _ _ HI p ltac:(lia)) as [K1 _]. assert (Ef : fst (lb L p) = i) by congruence.
    assert (HO : forall c, In c (niche_opt out) -> exists q, q < length L /\ fst (lb L q) = 1 /\ c = im st q /\ ni_rank c = Some (snd (lb L q)) /\ lb L q = (1, S q)).
    { intros c Hc. destruct opt_prefix as (k & E1 & E2 & _ & Hk & _). rewrite E1 in Hc. apply (In_nth _ _ nini0) in Hc as (q & Hq & <-). assert (Hq' := Hq). rewrite firstn_length in Hq.
      assert (Q : nth q (firstn k out) nini0 = nth q out nini0) by (rewrite <- (firstn_skipn k out) at 2; rewrite app_nth1; auto). exists q. split; [lia|].
      assert (Ic : In (nth q (firstn k out) nini0) (niche_opt out)) by (rewrite E1; now apply nth_In). unfold niche_opt in Ic. apply filter_In in Ic as [_ Ic].
      assert (Er : ni_rank (nth q (firstn k out) nini0) = Some (S q)) by (rewrite <- (map_nth ni_rank), <- E1, E2; rewrite (nth_indep _ _ (Some 0)) by (rewrite map_length, seq_length; lia); rewrite map_nth, seq_nth by lia; auto).
      rewrite Q, (out_im st q Eo) in Ic, Er by lia. destruct (i_lab _ _ _ _ _ _ _ HI q ltac:(lia)) as [L1 L2]. unfold iter_is_one in Ic. rewrite L1 in Ic. rewrite Q, (out_im st q Eo) by lia.
      destruct (lb L q) as [x y]. cbn [fst snd] in *. destruct x as [|[|x]]; try discriminate. split; auto. split; auto. split; auto. congruence. }
    destruct (i_niche2 _ _ _ _ _ _ _ HI (fresh_stale pop HF) p ltac:(lia) ltac:(lia)) as (q & Hq & Q1 & Q2 & Q3). exists (im st q).
    assert (Hin : In (im st q) (niche_opt out)).
    { unfold niche_opt. apply filter_In. split; [rewrite <- (out_im st q Eo) by lia; apply nth_In; lia|]. unfold iter_is_one. destruct (i_lab _ _ _ _ _ _ _ HI q Hq) as [L1 _]. now rewrite L1, Q1. }
    split; auto. split; [rewrite Q2; symmetry; now apply (i_niche1 _ _ _ _ _ _ _ HI)|]. intros c Hc. destruct (HO _ Hc) as (c' & Hc' & C1 & -> & C3 & C4). destruct (Q3 c' Hc' C1) as [X1 X2].
    rewrite !(D_im L e st _ _ HI) in X1, X2. split; auto. intros Eq. destruct (HO _ Hin) as (q' & Hq' & D1 & D2 & D3 & D4). exists (snd (lb L q)), (snd (lb L c')).
    split; [now apply (i_lab _ _ _ _ _ _ _ HI)|]. split; auto. destruct (le_lt_dec q c') as [Hle|Hlt]; [|specialize (X2 Hlt); lra].
    destruct (round_one L (i_rounds _ _ _ _ _ _ _ HI)) as (k & Hk & G1 & G2); [destruct L; [cbn in Hq; lia|congruence]|].
    assert (Hlq : lb L q = (1, S q)) by (apply G1; destruct (lt_dec q k); auto; specialize (G2 q ltac:(lia) Hq); lia).
    rewrite Hlq, C4. cbn. lia.
  Qed.
End Thms.
