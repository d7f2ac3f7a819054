(** * C117: the theorems about NicheGA *)
From Coq Require Import List Arith Bool ZArith QArith Lqa Lia Permutation Sorted.
From Verif Require Import ListAux M_Roulette M_Norm M_Niche Thm_Norm Thm_RMetric Thm_Roulette Thm_Niche Thm_Niche2.
Import ListNotations.
Local Open Scope nat_scope.

(** C117: the survivors are min(n_survive, n) different members of the population (only their attributes change); asked with
    n_max_each_iter = 0 the code raises instead (unless a member still carries the mark of an earlier generation) *)
Theorem C117_survivors : forall dist eps nmax ns pop, nmax <> Some 0 ->
  exists out rest, niche_survival dist eps nmax ns pop = Some out /\ length out = Nat.min ns (length pop) /\ Permutation (map ni_core out ++ rest) (map ni_core pop).
Proof.
  intros dist eps nmax ns pop Hm. destruct pop as [|a0 p] eqn:EP; [exists [], []; cbn; split; auto; split; auto; lia|]. rewrite <- EP in *.
  assert (Hp : pop <> []) by congruence. destruct (survival_inv dist eps nmax ns pop Hm Hp) as (L & e & st & E & _).
  destruct (t_survivors dist eps nmax ns pop _ Hm E Hp) as (rest & H1 & H2). eexists. exists rest. split; [exact E|]. auto.
Qed.
Print Assumptions C117_survivors.
(** the first survivor is the best of the population, and marked as the first leader *)
Theorem C117_first : forall dist eps nmax ns pop a rest, nmax <> Some 0 -> niche_survival dist eps nmax ns pop = Some (a :: rest) ->
  ni_iter a = Some 1 /\ ni_rank a = Some 1 /\ ni_niche a = Some 1 /\ forall b, In b pop -> no_worse a b.
Proof. intros dist eps nmax ns pop a rest Hm E. eapply t_first; eauto. Qed.
Print Assumptions C117_first.
(** the labels (iter, rank) of the survivors in order: (1, 1), then each time the next rank or the first rank of the next round; never more than
    n_max_each_iter in a round *)
Theorem C117_rounds : forall dist eps nmax ns pop out, nmax <> Some 0 -> niche_survival dist eps nmax ns pop = Some out ->
  exists L, map ni_iter out = map (fun l => Some (fst l)) L /\ map ni_rank out = map (fun l => Some (snd l)) L /\ rounds L /\ forall m, nmax = Some m -> Forall (fun l => snd l <= m) L.
Proof. intros dist eps nmax ns pop out Hm E. eapply t_rounds; eauto. Qed.
Print Assumptions C117_rounds.
(** two survivors of the same round are at least epsilon apart, and the earlier one is no worse *)
Theorem C117_apart : forall dist eps nmax ns pop out, nmax <> Some 0 -> niche_survival dist eps nmax ns pop = Some out -> forall p q, p < q -> q < length out ->
  let a := nth p out nini0 in let b := nth q out nini0 in ni_iter a = ni_iter b -> (eps <= dist (ni_x a) (ni_x b))%Q /\ no_worse a b.
Proof.
  intros dist eps nmax ns pop out Hm E p q Hpq Hq a b Hi. destruct (t_apart dist eps nmax ns pop out Hm E p q Hpq Hq Hi) as [H1 H2]. split; auto. unfold near in H1. fold a b in H1. destruct (Qlt_le_dec (dist (ni_x a) (ni_x b)) eps); [contradiction|auto].
Qed.
Print Assumptions C117_apart.
(** without n_max_each_iter a round ends only when nothing is left: once an individual of a later round was chosen, everybody had been chosen in
    round r or before, or is nearer than epsilon to a survivor of round r that is no worse *)
Theorem C117_covered : forall dist eps ns pop out, niche_survival dist eps None ns pop = Some out -> forall r r', 1 <= r < r' -> (exists a, In a out /\ ni_iter a = Some r') ->
  forall b, In b pop -> exists a i, In a out /\ ni_iter a = Some i /\ ((i <= r /\ ni_core a = ni_core b) \/ (i = r /\ near dist eps a b /\ no_worse a b)).
Proof. intros dist eps ns pop out E r r' Hr Ha b Hb. eapply t_cover; eauto. discriminate. Qed.
Print Assumptions C117_covered.
(** the optimum: the survivors of round one, first in the population; numbered 1, 2, ... by rank and by niche; pairwise at least epsilon apart, best first *)
Theorem C117_opt : forall dist eps nmax ns pop out, nmax <> Some 0 -> niche_survival dist eps nmax ns pop = Some out -> exists k, k <= length out /\ (out <> [] -> 1 <= k) /\
  niche_opt out = firstn k out /\ map ni_rank (niche_opt out) = map Some (seq 1 k) /\ map ni_niche (niche_opt out) = map Some (seq 1 k) /\
  (forall p q, p < q -> q < k -> let a := nth p (niche_opt out) nini0 in let b := nth q (niche_opt out) nini0 in (eps <= dist (ni_x a) (ni_x b))%Q /\ no_worse a b) /\
  (forall a rest, niche_opt out = a :: rest -> forall b, In b pop -> no_worse a b).
Proof.
  intros dist eps nmax ns pop out Hm E. destruct (opt_prefix dist eps nmax ns pop out Hm E) as (k & H1 & H2 & H3 & H4 & H5). exists k. do 5 (split; auto).
  assert (HN : forall p, p < k -> nth p (niche_opt out) nini0 = nth p out nini0 /\ ni_iter (nth p out nini0) = Some 1).
  { intros p Hp. assert (Q : nth p (niche_opt out) nini0 = nth p out nini0) by (rewrite H1; rewrite <- (firstn_skipn k out) at 2; rewrite app_nth1; auto; rewrite firstn_length; lia). split; auto.
    assert (Ic : In (nth p (niche_opt out) nini0) (niche_opt out)) by (apply nth_In; rewrite H1, firstn_length; lia). rewrite Q in Ic. unfold niche_opt in Ic. apply filter_In in Ic as [_ Ic]. unfold iter_is_one in Ic.
    destruct (ni_iter (nth p out nini0)) as [[|[|?]]|]; congruence. }
  split.
  - intros p q Hpq Hq a b. destruct (HN p ltac:(lia)) as [Ea Ia]. destruct (HN q Hq) as [Eb Ib]. unfold a, b. rewrite Ea, Eb. apply (C117_apart dist eps nmax ns pop out Hm E p q Hpq ltac:(lia)). congruence.
  - intros a rest Ea b Hb. destruct out as [|a1 o]; [discriminate|]. destruct (C117_first dist eps nmax ns pop a1 o Hm E) as (F1 & _ & _ & F2). unfold niche_opt in Ea. cbn [filter] in Ea. unfold iter_is_one in Ea at 1. rewrite F1 in Ea. injection Ea as <- _. auto.
Qed.
Print Assumptions C117_opt.
(** the niche of a survivor of a later round is that of the closest leader (the better one if two are equally close), if no member of the population
    carries a mark from an earlier generation *)
Theorem C117_niche : forall dist eps nmax ns pop out, nmax <> Some 0 -> niche_survival dist eps nmax ns pop = Some out -> Forall (fun a => ni_iter a <> Some 1) pop ->
  forall a i, In a out -> ni_iter a = Some i -> 2 <= i -> exists b, In b (niche_opt out) /\ ni_niche a = ni_niche b /\ forall c, In c (niche_opt out) ->
    (dist (ni_x a) (ni_x b) <= dist (ni_x a) (ni_x c))%Q /\ ((dist (ni_x a) (ni_x b) == dist (ni_x a) (ni_x c))%Q -> exists rb rc, ni_rank b = Some rb /\ ni_rank c = Some rc /\ rb <= rc).
Proof. intros dist eps nmax ns pop out Hm E HF a i Ha Ei Hi. eapply t_niche; eauto. Qed.
Print Assumptions C117_niche.

(** a run: no generation fails, the size is the population size (or what there is), and the first member is no worse than anything ever evaluated *)
Lemma survival_some dist eps nmax ns pop : nmax <> Some 0 -> 1 <= ns -> pop <> [] -> exists a out, niche_survival dist eps nmax ns pop = Some (a :: out) /\ S (length out) = Nat.min ns (length pop) /\ forall b, In b pop -> no_worse a b.
Proof.
  intros Hm Hns Hp. destruct (C117_survivors dist eps nmax ns pop Hm) as (out & rest & E & HL & _). destruct out as [|a out]; [destruct pop; [congruence|cbn in HL; lia]|]. exists a, out. split; auto. split; auto. eapply C117_first; eauto.
Qed.
Theorem C117_run : forall dist eps nmax pop_size infills offs, nmax <> Some 0 -> 1 <= pop_size -> infills <> [] ->
  exists a rest, niche_run dist eps nmax pop_size infills offs = Some (a :: rest) /\ (forall b, In b (infills ++ concat offs) -> no_worse a b) /\
    (length infills <= pop_size -> length (a :: rest) = Nat.min pop_size (length (infills ++ concat offs))).
Proof.
  intros dist eps nmax ps infills offs Hm Hps Hne. unfold niche_run, niche_init. destruct (survival_some dist eps nmax (length infills) infills Hm) as (a & out & -> & HL & Ha); [destruct infills; [congruence|cbn; lia]|auto|].
  assert (G : forall offs seen a out, (forall b, In b seen -> no_worse a b) -> (length (a :: out) = Nat.min ps (length seen) \/ ps < length infills) ->
    exists a' rest, niche_advances dist eps nmax ps (a :: out) offs = Some (a' :: rest) /\ (forall b, In b (seen ++ concat offs) -> no_worse a' b) /\ (length (a' :: rest) = Nat.min ps (length (seen ++ concat offs)) \/ ps < length infills)).
  { clear a out HL Ha offs. induction offs as [|off offs IH]; intros seen a out Ha HL; cbn [niche_advances concat].
    - exists a, out. rewrite app_nil_r. auto.
    - unfold niche_advance. destruct (survival_some dist eps nmax ps ((a :: out) ++ off) Hm Hps ltac:(discriminate)) as (a1 & out1 & -> & HL1 & Ha1).
      destruct (IH (seen ++ off) a1 out1) as (a2 & out2 & E & H1 & H2).
      + intros b Hb. apply in_app_iff in Hb as [Hb|Hb]; [apply (no_worse_trans a1 a b); [apply Ha1; cbn; auto|auto]|apply Ha1; apply in_app_iff; auto].
      + destruct HL as [HL|HL]; [left|auto]. cbn [length] in *. rewrite HL1, !app_length. cbn [length]. lia.
      + exists a2, out2. rewrite <- app_assoc in H1, H2. auto. }
  destruct (G offs infills a out Ha) as (a' & rest & E & H1 & H2).
  { destruct (le_lt_dec (length infills) ps); [left|auto]. cbn [length]. lia. }
  exists a', rest. split; auto. split; auto. intros Hle. destruct H2; [auto|lia].
Qed.
Print Assumptions C117_run.

(** n_max_each_iter = 0: argmin of an empty array, whatever the population (nobody marked) *)
Theorem C117_zero_raises : forall dist eps ns pop, Forall (fun a => ni_iter a <> Some 1) pop -> pop <> [] -> 1 <= ns -> niche_survival dist eps (Some 0) ns pop = None.
Proof.
  intros dist eps ns pop HF Hp Hns. rewrite survival_eq by auto. set (D := fun p q => _). set (sorted := fitness_survival pop). assert (HLs : length sorted = length pop) by apply sorted_len.
  assert (HL : 1 <= length pop) by (destruct pop; [congruence|cbn; lia]). destruct (Nat.min ns (length pop)) as [|n] eqn:EN; [lia|]. cbn [ni_loop]. replace (length (cl_S (ns_c (ns_init sorted))) <? S n) with true by reflexivity.
  assert (ER : ni_refresh (Some 0) (ns_init sorted) = {| ns_pop := sorted; ns_c := cl_reset (length sorted) (cl_init (length sorted)); ns_it := 2; ns_rk := 1; ns_one := Some (where_ (fun p => iter_is_one (nth p sorted nini0)) (length sorted)) |}).
  { unfold ni_refresh, ni_reset_now, ns_init. cbn [ns_pop ns_c ns_it ns_rk ns_one]. destruct (cl_remaining (length sorted) (cl_init (length sorted))); reflexivity. }
  rewrite ER. unfold ni_pick. cbn [ns_pop ns_c ns_it ns_rk ns_one]. destruct (cl_remaining (length sorted) (cl_reset (length sorted) (cl_init (length sorted)))); auto. cbn [Nat.eqb].
  assert (EW : where_ (fun p => iter_is_one (nth p sorted nini0)) (length sorted) = []).
  { destruct (where_ (fun p => iter_is_one (nth p sorted nini0)) (length sorted)) as [|i l0] eqn:E; auto. exfalso. assert (K : In i (i :: l0)) by (cbn; auto). rewrite <- E in K. apply In_where in K as [K1 K2]. exact (fresh_stale pop HF i K1 K2). }
  now rewrite EW.
Qed.
Print Assumptions C117_zero_raises.

(** ** a case, and what goes wrong in later generations *)
Definition ni (x f : Q) : nini := {| ni_x := [x]; ni_f := f; ni_cv := 0%Q; ni_iter := None; ni_rank := None; ni_niche := None |}.
Definition dist1 (x y : list Q) : Q := Qabs.Qabs (nth 0 x 0%Q - nth 0 y 0%Q).
Definition gen1 : list nini := [ni (1 # 10) 3; ni 5 2; ni 0 1].
Example C117_example : Forall (fun a => ni_iter a <> Some 1) gen1 /\
  option_map (map (fun a => (ni_f a, ni_iter a, ni_rank a, ni_niche a))) (niche_survival dist1 1 None 3 gen1) =
  Some [(1%Q, Some 1, Some 1, Some 1); (2%Q, Some 1, Some 2, Some 2); (3%Q, Some 2, Some 1, Some 1)] /\
  niche_survival dist1 1 (Some 0) 3 gen1 = None.
Proof. split; [repeat constructor; discriminate|]. split; vm_compute; reflexivity. Qed.
(** a run of two generations in which a survivor of round two has the niche number 2 although the closest leader is number 1: it was a leader in the
    generation before, and is still marked as one when the niches are assigned *)
Theorem C117_niche_refuted : exists infills off pop1 pop2 a b c, niche_init dist1 1 None infills = Some pop1 /\ niche_advance dist1 1 None 4 pop1 off = Some pop2 /\
  Forall (fun a => ni_iter a = None) (infills ++ off) /\ In a pop2 /\ ni_iter a = Some 2 /\ In b (niche_opt pop2) /\ In c (niche_opt pop2) /\
  (dist1 (ni_x a) (ni_x b) < dist1 (ni_x a) (ni_x c))%Q /\ ni_niche a = ni_niche c /\ ni_niche b = Some 1 /\ ni_niche c = Some 2.
Proof.
  destruct (niche_init dist1 1 None gen1) as [pop1|] eqn:E1; [|vm_compute in E1; discriminate]. destruct (niche_advance dist1 1 None 4 pop1 [ni (9 # 2) 0]) as [pop2|] eqn:E2.
  2:{ vm_compute in E1. injection E1 as <-. vm_compute in E2. discriminate. }
  exists gen1, [ni (9 # 2) 0], pop1, pop2, (nth 2 pop2 nini0), (nth 0 pop2 nini0), (nth 1 pop2 nini0). split; [exact E1|]. split; [exact E2|]. vm_compute in E1. injection E1 as <-. vm_compute in E2. injection E2 as <-.
  split; [repeat constructor|]. split; [cbn; auto|]. split; [reflexivity|]. split; [cbn; auto|]. split; [cbn; auto|]. split; [reflexivity|]. split; [reflexivity|]. split; reflexivity.
Qed.
Print Assumptions C117_niche_refuted.
