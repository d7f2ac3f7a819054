(** * C78: particle swarm optimisation *)
From Coq Require Import List Arith Bool QArith Lqa Lia Permutation.
From Verif Require Import S_Pareto S_Optimum P_Optimum Thm_Optimum Flt ListAux NpSort M_Survival M_Optimum M_Bounds M_Cross M_Swarm S_Survival P_Survival4 Thm_Survival P_Bounds P_Cross Thm_GA Thm_DE.
Import ListNotations.
Local Open Scope nat_scope.

Lemma assign_all {A} (d : A) (pop vals : list A) : length vals = length pop -> assign pop (seq 0 (length pop)) vals = vals.
Proof.
  intros HL. apply nth_ext with d d; [now rewrite assign_length|]. intros k Hk. rewrite assign_length in Hk.
  pose proof (assign_at d (seq 0 (length pop)) pop vals k (seq_NoDup _ _)) as H. rewrite seq_length, seq_nth in H by lia. cbn [plus] in H. apply H; lia.
Qed.

Section PSO.
  Context {A : Type} (d : A) (view : A -> ind1) (close : A -> A -> bool) (hc : bool).
  Hypothesis Hfeas : hc = false -> forall a, o_feas (view a) = true.
  Lemma pso_is_de pop off : length off = length pop -> pso_advance d view close hc pop off = de_advance d view close hc pop (seq 0 (length pop)) off.
  Proof.
    intros HL. unfold de_advance, pso_advance. rewrite gather_seq. symmetry. apply (assign_all d). apply length_improvement.
  Qed.
  Definition visited (pop : list A) (gens : list (list A)) : list A := pop ++ concat gens.
  Lemma pso_covers gens : forall pop, Forall (fun off => length off = length pop) gens ->
    deterministic view close (visited pop gens) -> (forall x, In x (visited pop gens) -> vok (view x)) ->
    let final := pso_run d view close hc gens pop in
    length final = length pop /\ incl final (visited pop gens) /\ forall x, In x (visited pop gens) -> exists b, In b final /\ ~ better (view x) (view b).
  Proof.
    induction gens as [|off gens IH]; intros pop HG HD HV final.
    - unfold final, visited. cbn [pso_run concat]. rewrite app_nil_r. split; [reflexivity|]. split; [apply incl_refl|]. intros x Hx. exists x. split; [exact Hx|apply better_irrefl].
    - apply Forall_cons_iff in HG. destruct HG as [HO HG].
      assert (E0 : visited pop (off :: gens) = (pop ++ off) ++ concat gens) by (unfold visited; cbn [concat]; apply app_assoc).
      assert (Sub : forall x, In x (pop ++ off) -> In x (visited pop (off :: gens))) by (intros x Hx; rewrite E0; apply in_or_app; now left).
      destruct (advance_covers d view close hc Hfeas pop (seq 0 (length pop)) off (seq_NoDup _ _)) as (A1 & A2); [intros t Ht; apply in_seq in Ht; lia|now rewrite seq_length|intros a b Ha Hb; apply HD; now apply Sub|].
      rewrite <- pso_is_de in A1, A2 by exact HO. set (pop' := pso_advance d view close hc pop off) in *.
      assert (LP : length pop' = length pop) by apply length_improvement.
      assert (Sub' : forall x, In x (visited pop' gens) -> In x (visited pop (off :: gens))).
      { intros x Hx. unfold visited in Hx. apply in_app_or in Hx. destruct Hx as [Hx|Hx]; [now apply Sub, A1|]. rewrite E0. apply in_or_app. now right. }
      destruct (IH pop') as (B1 & B2 & B3); [rewrite LP; exact HG|intros a b Ha Hb; apply HD; now apply Sub'|intros x Hx; now apply HV, Sub'|].
      change final with (pso_run d view close hc gens pop').
      split; [lia|]. split; [intros x Hx; now apply Sub', B2|]. intros x Hx. rewrite E0 in Hx. apply in_app_or in Hx. destruct Hx as [Hx|Hx].
      + destruct (A2 x Hx) as (b & Hb & Hn1). destruct (B3 b) as (b' & Hb' & Hn2); [unfold visited; apply in_or_app; now left|]. exists b'. split; [exact Hb'|]. intros H0.
        assert (Vx : vok (view x)) by (apply HV; now apply Sub). assert (Vb : vok (view b)) by (apply HV, Sub', in_or_app; now left). assert (Vb' : vok (view b')) by (apply HV; now apply Sub', B2).
        destruct (better_weak (view x) (view b) (view b') Vx Vb Vb' H0); auto.
      + apply B3. unfold visited. apply in_or_app. now right.
  Qed.
End PSO.

(** C78: over a whole run every particle keeps a record that is never replaced by anything not strictly better; and the reported optimum -- the attractor of the whole swarm in the
    next generation -- is a single evaluated solution that no position ever evaluated beats *)
Theorem C78_best (A : Type) (d : A) view close hc pr gens pop : (hc = false -> forall a, o_feas (view a) = true) ->
  pop <> [] -> Forall (fun off => length off = length pop) gens ->
  deterministic view close (visited pop gens) -> (forall x, In x (visited pop gens) -> vok (view x)) ->
  let final := pso_run d view close hc gens pop in
  length final = length pop /\ incl final (visited pop gens) /\
  exists o, filter_optimum d (fun a => [o_f (view a)]) (fun a => o_cv (view a)) (fun a => o_feas (view a)) pr 1 (Some final) true = Some [o] /\
    In o (visited pop gens) /\ forall x, In x (visited pop gens) -> ~ better (view x) (view o).
Proof.
  intros Hf Hne HG HD HV final. destruct (pso_covers d view close hc Hf gens pop HG HD HV) as (R1 & R2 & R3). fold final in R1, R2, R3.
  split; [exact R1|]. split; [exact R2|]. assert (Hn : final <> []) by (intros E; rewrite E in R1; destruct pop; [congruence|discriminate]).
  set (obj := fun a => [o_f (view a)]). set (cv := fun a => o_cv (view a)). set (feas := fun a => o_feas (view a)).
  assert (HO : Forall (ind_ok obj cv 1) final).
  { apply Forall_forall. intros x Hx. destruct (HV x (R2 x Hx)) as [V1 V2]. split; [|exact V2]. split; [reflexivity|]. constructor; [exact V1|constructor]. }
  assert (Opt : exists o, filter_optimum d obj cv feas pr 1 (Some final) true = Some [o] /\ In o final /\ forall x, In x final -> ~ better (view x) (view o)).
  { destruct (existsb feas final) eqn:E.
    - apply existsb_exists in E. destruct (C40_single A d obj cv feas pr final true HO E) as (o & O1 & O2 & O3 & O4). exists o. split; [exact O1|]. split; [exact O2|].
      intros x Hx [[H1 H2]|[(H1 & H2 & H3)|(H1 & H2 & H3)]]; unfold feas in *; try congruence. specialize (O4 x Hx H1). cbn [obj nth] in O4. apply fle_not_lt in O4. unfold obj in O4. cbn [nth] in O4. congruence.
    - assert (Hno : forall a, In a final -> feas a = false) by (intros a Ha; destruct (feas a) eqn:Ea; auto; assert (existsb feas final = true) by (apply existsb_exists; eauto); congruence).
      destruct (C40_infeasible A d obj cv feas pr 1 final Hn) as [(o & O1 & O2 & O3) _]; auto; [intros a Ha; apply (HV a (R2 a Ha))|].
      exists o. split; [exact O1|]. split; [exact O2|]. intros x Hx [[H1 H2]|[(H1 & H2 & H3)|(H1 & H2 & H3)]]; try (pose proof (Hno x Hx); unfold feas in *; congruence).
      specialize (O3 x Hx). unfold cv in O3. apply fle_not_lt in O3. congruence. }
  destruct Opt as (o & O1 & O2 & O3). exists o. split; [exact O1|]. split; [auto|]. intros x Hx H. destruct (R3 x Hx) as (b & Hb & Hnb).
  destruct (better_weak (view x) (view b) (view o)) as [H1|H1]; auto. apply (O3 b Hb H1).
Qed.
(** C78: exactly when a particle's record changes *)
Theorem C78_personal (A : Type) (d : A) view close hc pop off : (hc = false -> forall a, o_feas (view a) = true) -> length off = length pop ->
  let pop' := pso_advance d view close hc pop off in
  length pop' = length pop /\ forall i, i < length pop -> let x := nth i off d in
    let dup := (exists j, j < i /\ close x (nth j off d) = true) \/ (exists s, In s pop /\ close x s = true) in
    (better (view x) (view (nth i pop d)) /\ ~ dup -> nth i pop' d = x) /\ (~ (better (view x) (view (nth i pop d)) /\ ~ dup) -> nth i pop' d = nth i pop d).
Proof.
  intros Hf HL pop'. split; [apply length_improvement|]. intros i Hi x dup.
  destruct (C14_replacement A d view hc pop off (dup_idx d close off pop) HL Hf) as [_ HS]. destruct (HS i Hi) as [S1 S2].
  assert (HD : In i (dup_idx d close off pop) <-> dup) by (apply dup_spec; lia). rewrite HD in S1, S2. split; [intros [H1 H2]; now apply S1|exact S2].
Qed.
(** "every particle remembers the best position it has visited" is false: a position that another particle has on record is not recorded *)
Definition zview (z : Z) : ind1 := {| o_f := fz z; o_cv := f_zero; o_feas := true |}.
Theorem C78_personal_best_refuted : exists pop off, length off = length pop /\ better (zview (nth 0 off 9%Z)) (zview (nth 0 pop 9%Z)) /\
  pso_advance 9%Z zview Z.eqb false pop off = pop /\ pop <> off.
Proof. exists [5; 2]%Z, [2; 3]%Z. repeat split; try reflexivity; [|discriminate]. unfold better. right. right. repeat split. Qed.
(** a concrete swarm: three particles, two generations *)
Example C78_ex : let pop := [5; 2; 7]%Z in let gens := [[4; 3; 1]; [6; 0; 1]]%Z in
  pop <> [] /\ Forall (fun off => length off = length pop) gens /\ deterministic zview Z.eqb (visited pop gens) /\ (forall x, In x (visited pop gens) -> vok (zview x)) /\
  pso_run 9%Z zview Z.eqb false gens pop = [4; 0; 1]%Z.
Proof.
  split; [discriminate|]. split; [repeat constructor|]. split; [intros a b _ _ H; apply Z.eqb_eq in H; now subst|]. split; [|reflexivity]. intros x Hx. cbn in Hx. decompose [or] Hx; subst; try (split; reflexivity). contradiction.
Qed.

(** ** movement *)
Local Open Scope Q_scope.
Lemma stb_in x l u : l <= u -> l <= set_to_bounds x l u /\ set_to_bounds x l u <= u.
Proof. intros H. unfold set_to_bounds. destruct (Qltb x l) eqn:E1; qb; match goal with |- context [Qltb u ?t] => destruct (Qltb u t) eqn:E2 end; qb; lra. Qed.
Lemma stb_id x l u : l <= x -> x <= u -> set_to_bounds x l u = x.
Proof. intros H1 H2. unfold set_to_bounds. destruct (Qltb x l) eqn:E1; qb; [lra|]. destruct (Qltb u x) eqn:E2; qb; [lra|reflexivity]. Qed.
(** C78: the velocity never exceeds its limit, the particle moves by its velocity, and the velocity is inertia plus attraction wherever the limit is not reached *)
Theorem C78_velocity x p s v vmax w c1 c2 r1 r2 : 0 <= vmax -> let '(x', v') := pso_equation x p s v vmax w c1 c2 r1 r2 in
  x' == x + v' /\ - vmax <= v' /\ v' <= vmax /\
  (let raw := w * v + c1 * r1 * (p - x) + c2 * r2 * (s - x) in (- vmax <= raw /\ raw <= vmax -> v' == raw) /\ (raw < - vmax -> v' == - vmax) /\ (vmax < raw -> v' == vmax)).
Proof.
  intros H. unfold pso_equation. set (raw := w * v + c1 * r1 * (p - x) + c2 * r2 * (s - x)). assert (L : - vmax <= vmax) by lra. destruct (stb_in raw _ _ L) as [B1 B2].
  split; [reflexivity|]. split; [exact B1|]. split; [exact B2|]. cbv zeta. split; [intros [H1 H2]; now rewrite stb_id|]. unfold set_to_bounds. split; intros HH.
  - destruct (Qltb raw (- vmax)) eqn:E1; qb; [|lra]. destruct (Qltb vmax (- vmax)) eqn:E2; qb; lra.
  - destruct (Qltb raw (- vmax)) eqn:E1; qb; [lra|]. destruct (Qltb vmax raw) eqn:E2; qb; lra.
Qed.
(** C78: a particle inside of the box stays there; its velocity stays limited *)
Theorem C78_move_box n x p s v vmax w c1 c2 rs xl xu y1 y2 : (forall j, (j < n)%nat -> xl j <= x j /\ x j <= xu j) -> (forall j, 0 <= vmax j) ->
  (forall j, 0 <= y1 j /\ y1 j < 1 /\ 0 <= y2 j /\ y2 j < 1) -> rs <> [] ->
  let '(x', v') := pso_move n x p s v vmax w c1 c2 rs xl xu y1 y2 in
  forall j, (j < n)%nat -> xl j <= x' j /\ x' j <= xu j /\ - vmax j <= v' j /\ v' j <= vmax j.
Proof.
  intros HX HM HY Hne. unfold pso_move. destruct rs as [|r0 rs]; [congruence|]. cbv zeta.
  set (eq := fun r : (nat -> Q) * (nat -> Q) => fun j => pso_equation (x j) (p j) (s j) (v j) (vmax j) w c1 c2 (fst r j) (snd r j)).
  set (step := fun (m : nat -> Q * Q) r => if existsb (fun j => Qltb (fst (m j)) (xl j) || Qltb (xu j) (fst (m j))) (seq 0 n) then eq r else m).
  assert (G : forall l m, (forall j, - vmax j <= snd (m j) /\ snd (m j) <= vmax j) -> forall j, - vmax j <= snd (fold_left step l m j) /\ snd (fold_left step l m j) <= vmax j).
  { induction l as [|r l IH]; intros m Hm; [exact Hm|]. cbn [fold_left]. apply IH. intros j. unfold step. destruct (existsb _ _); [|apply Hm]. unfold eq.
    pose proof (C78_velocity (x j) (p j) (s j) (v j) (vmax j) w c1 c2 (fst r j) (snd r j) (HM j)) as H. destruct (pso_equation _ _ _ _ _ _ _ _ _ _) as [a b]. cbn [snd]. tauto. }
  intros j Hj. destruct (HX j Hj), (HY j) as (? & ? & ? & ?). destruct (G (firstn 20 rs) (eq r0)) with (j := j) as [V1 V2].
  { intros i. unfold eq. pose proof (C78_velocity (x i) (p i) (s i) (v i) (vmax i) w c1 c2 (fst r0 i) (snd r0 i) (HM i)) as H9. destruct (pso_equation _ _ _ _ _ _ _ _ _ _) as [a b]. cbn [snd]. tauto. }
  match goal with |- xl j <= repair_random_init ?t _ _ _ _ _ /\ _ => destruct (random_init_box t (x j) (xl j) (xu j) (y1 j) (y2 j)) as [R1 R2]; auto end.
Qed.
(** a concrete particle that would leave the box on both tries *)
Example C78_move_ex : let '(x', v') := pso_move 1 (fun _ => 9 # 10) (fun _ => 1) (fun _ => 1) (fun _ => 1 # 5) (fun _ => 1 # 5) (9 # 10) 2 2 [(fun _ => 1 # 2, fun _ => 1 # 2); (fun _ => 1 # 4, fun _ => 1 # 4)] (fun _ => 0) (fun _ => 1) (fun _ => 1 # 2) (fun _ => 1 # 2) in
  x' 0%nat == 19 # 20 /\ v' 0%nat == 1 # 5.
Proof. split; reflexivity. Qed.
(** C78: the velocity limit is the given part of the range; problems without bounds raise *)
Theorem C78_vmax rate xl xu : length xl = length xu -> exists V, pso_vmax rate (Some xl) (Some xu) = Some V /\ length V = length xl /\ forall j, (j < length xl)%nat -> nth j V 0 == rate * (nth j xu 0 - nth j xl 0).
Proof.
  intros HL. eexists. split; [reflexivity|]. split; [rewrite map_length, length_map2; lia|]. intros j Hj. rewrite (nth_indep _ 0 (rate * 0)) by (rewrite map_length, length_map2; lia). rewrite (map_nth (Qmult rate)). rewrite (nth_map2 Qminus xu xl j 0 0 0) by lia. reflexivity.
Qed.
Theorem C78_unbounded_refuted rate xl xu : xl = None \/ xu = None -> pso_vmax rate xl xu = None.
Proof. intros [->| ->]; [reflexivity|]. destruct xl; reflexivity. Qed.
Theorem C78_initial_velocity b vmax r : 0 <= vmax -> 0 <= r -> r < 1 -> 0 <= pso_init_v b vmax r /\ pso_init_v b vmax r <= vmax.
Proof. intros H1 H2 H3. unfold pso_init_v. pose proof (scale_range r vmax H2 H3 H1). destruct b; lra. Qed.

(** ** adaptation *)
Lemma leb_case a b : (Qle_bool a b = true /\ a <= b) \/ (Qle_bool a b = false /\ b < a).
Proof. destruct (Qle_bool a b) eqn:E; [left; split; [auto|now apply Qle_bool_iff]|right; split; [auto|]]. apply Qnot_le_lt. intros H. apply Qle_bool_iff in H. congruence. Qed.
Ltac lebs := repeat match goal with |- context [Qle_bool ?a ?b] => let E1 := fresh "E" in let E2 := fresh "E" in destruct (leb_case a b) as [[E1 E2]|[E1 E2]]; rewrite E1 end.
(** C78: the four memberships lie between 0 and 1, and one of them is at least one third, whatever the factor *)
Theorem C78_membership f : let m := [S1_exploration f; S2_exploitation f; S3_convergence f; S4_jumping_out f] in
  Forall (fun s => 0 <= s /\ s <= 1) m /\ Exists (fun s => 1 # 3 <= s) m.
Proof.
  cbv zeta. split.
  - repeat constructor; unfold S1_exploration, S2_exploitation, S3_convergence, S4_jumping_out; lebs; lra.
  - destruct (Qlt_le_dec f (2 # 10)) as [H|H]; [apply Exists_cons_tl, Exists_cons_tl, Exists_cons_hd; unfold S3_convergence; lebs; lra|].
    destruct (Qlt_le_dec f (7 # 30)) as [H0|H0]; [apply Exists_cons_tl, Exists_cons_tl, Exists_cons_hd; unfold S3_convergence; lebs; lra|].
    destruct (Qlt_le_dec f (5 # 10)) as [H1|H1]; [apply Exists_cons_tl, Exists_cons_hd; unfold S2_exploitation; lebs; lra|].
    destruct (Qlt_le_dec f (23 # 30)) as [H2|H2]; [apply Exists_cons_hd; unfold S1_exploration; lebs; lra|].
    apply Exists_cons_tl, Exists_cons_tl, Exists_cons_tl, Exists_cons_hd. unfold S4_jumping_out. lebs; lra.
Qed.
Lemma argmax_from_spec l : forall best bi i full, (forall q, (q < length l)%nat -> nth (i + q) full 0 = nth q l 0) -> (bi < i)%nat -> nth bi full 0 = best ->
  (forall q, (q < i)%nat -> nth q full 0 <= best) -> length full = (i + length l)%nat ->
  let k := argmax_from best bi i l in (k < length full)%nat /\ forall q, (q < length full)%nat -> nth q full 0 <= nth k full 0.
Proof.
  induction l as [|x l IH]; intros best bi i full Hl Hb Eb Hq HL; cbn [argmax_from].
  - cbn [length] in HL. rewrite Nat.add_0_r in HL. split; [lia|]. intros q H. rewrite Eb. apply Hq. lia.
  - cbn [length] in HL. assert (Ex : nth i full 0 = x) by (rewrite <- (Nat.add_0_r i); apply (Hl 0%nat); cbn; lia).
    assert (Hl' : forall q, (q < length l)%nat -> nth (S i + q) full 0 = nth q l 0) by (intros q Hq'; replace (S i + q)%nat with (i + S q)%nat by lia; apply (Hl (S q)); cbn; lia).
    destruct (Qltb best x) eqn:E; qb; apply IH; auto; try lia.
    + intros q H. destruct (Nat.eq_dec q i) as [->|]; [rewrite Ex; lra|]. specialize (Hq q ltac:(lia)). lra.
    + intros q H. destruct (Nat.eq_dec q i) as [->|]; [rewrite Ex; lra|]. apply Hq. lia.
Qed.
(** C78: the strategy is the one with the largest membership *)
Theorem C78_strategy f : let m := [S1_exploration f; S2_exploitation f; S3_convergence f; S4_jumping_out f] in
  (1 <= strategy f <= 4)%nat /\ forall q, (q < 4)%nat -> nth q m 0 <= nth (strategy f - 1) m 0.
Proof.
  intros m. destruct (argmax_from_spec [S2_exploitation f; S3_convergence f; S4_jumping_out f] (S1_exploration f) 0 1 m) as [H1 H2].
  - intros q Hq. reflexivity.
  - lia.
  - reflexivity.
  - intros q Hq. assert (q = 0%nat) by lia. subst. unfold m. cbn [nth]. lra.
  - reflexivity.
  - unfold strategy. cbn [length m] in H1, H2. split; [lia|]. intros q Hq. rewrite Nat.sub_succ, Nat.sub_0_r. apply H2. exact Hq.
Qed.
(** the strategies by the value of the factor: convergence below 7/30, exploitation up to 1/2, exploration up to 23/30, jumping out above *)
Theorem C78_strategy_by_factor f : (f < 7 # 30 -> strategy f = 3%nat) /\ (7 # 30 < f /\ f < 1 # 2 -> strategy f = 2%nat) /\ (1 # 2 < f /\ f < 23 # 30 -> strategy f = 1%nat) /\ (23 # 30 < f -> strategy f = 4%nat).
Proof.
  assert (G : forall k, (k < 4)%nat -> let m := [S1_exploration f; S2_exploitation f; S3_convergence f; S4_jumping_out f] in (forall q, (q < 4)%nat -> q <> k -> nth q m 0 < nth k m 0) -> strategy f = S k).
  { intros k Hk m H. destruct (C78_strategy f) as [S1 S2]. fold m in S2. destruct (Nat.eq_dec (strategy f - 1) k) as [E|E]; [lia|]. specialize (S2 k Hk). specialize (H (strategy f - 1)%nat ltac:(lia) E). lra. }
  assert (G2 : forall k, (k < 4)%nat -> forall (P : nat -> Prop), (P 0%nat \/ k = 0%nat) -> (P 1%nat \/ k = 1%nat) -> (P 2%nat \/ k = 2%nat) -> (P 3%nat \/ k = 3%nat) -> forall q, (q < 4)%nat -> q <> k -> P q).
  { intros k Hk P H0 H1 H2 H3 q Hq Hne. destruct q as [|[|[|[|q]]]]; try lia; [destruct H0|destruct H1|destruct H2|destruct H3]; auto; congruence. }
  split; [|split; [|split]]; intros H; [apply (G 2%nat)|apply (G 1%nat)|apply (G 0%nat)|apply (G 3%nat)]; try lia; cbv zeta; apply G2; try lia; cbn [nth];
    try (right; reflexivity); left; unfold S1_exploration, S2_exploitation, S3_convergence, S4_jumping_out; try (match type of H with _ /\ _ => destruct H end); lebs; lra.
Qed.

Lemma clip_in x : 3 # 2 <= clip x /\ clip x <= 5 # 2.
Proof. unfold clip. destruct (leb_case x (5 # 2)) as [[-> H]|[-> H]]; cbv zeta; lebs; lra. Qed.
Lemma div_bound a b l u : 0 < b -> l * b <= a -> a <= u * b -> l <= a / b /\ a / b <= u.
Proof. intros Hb H1 H2. split; [apply Qle_shift_div_l|apply Qle_shift_div_r]; auto. Qed.
(** C78: both acceleration coefficients stay between 1.5 and 2.5 *)
Theorem C78_coefficients st delta c1 c2 : let '(c1', c2') := adapt_c st delta c1 c2 in (3 # 2 <= c1' /\ c1' <= 5 # 2) /\ (3 # 2 <= c2' /\ c2' <= 5 # 2).
Proof.
  unfold adapt_c. set (q := match st with 1%nat => _ | _ => _ end). destruct q as [a b]. destruct (clip_in a) as [A1 A2], (clip_in b) as [B1 B2]. set (x := clip a) in *. set (y := clip b) in *.
  destruct (Qltb 4 (x + y)) eqn:E; qb; [|split; split; assumption].
  assert (X : (3 # 2) <= 4 * (x / (x + y)) /\ 4 * (x / (x + y)) <= 5 # 2).
  { destruct (div_bound x (x + y) (3 # 8) (5 # 8)); try lra. }
  set (x' := 4 * (x / (x + y))) in *. split; [exact X|]. destruct (div_bound y (x' + y) (3 # 8) (5 # 8)); try lra.
Qed.
(** "their sum never exceeds 4" is false: the second one is rescaled with the already rescaled first one *)
Theorem C78_sum_refuted : let '(c1', c2') := adapt_c 3 (1 # 20) (5 # 2) (5 # 2) in c1' == 2 /\ c2' == 20 # 9 /\ 4 < c1' + c2'.
Proof. vm_compute. repeat split. Qed.
(** C78: as long as the sum is at most 4 neither coefficient is rescaled *)
Theorem C78_no_rescale st delta c1 c2 : 0 <= delta -> delta <= 1 # 10 -> (3 # 2) + delta <= c1 -> c1 <= (5 # 2) - delta -> (3 # 2) + delta <= c2 -> c2 <= (5 # 2) - delta -> (c1 + c2 <= 4 /\ st <> 3%nat \/ c1 + c2 + delta <= 4) ->
  let '(c1', c2') := adapt_c st delta c1 c2 in
  match st with
  | 1%nat => c1' == c1 + delta /\ c2' == c2 - delta
  | 2%nat => c1' == c1 + (1 # 2) * delta /\ c2' == c2 - (1 # 2) * delta
  | 3%nat => c1' == c1 + (1 # 2) * delta /\ c2' == c2 + (1 # 2) * delta
  | 4%nat => c1' == c1 - delta /\ c2' == c2 + delta
  | _ => c1' == c1 /\ c2' == c2
  end.
Proof.
  intros H1 H2 H3 H4 H5 H6 HS. assert (CI : forall z, 3 # 2 <= z -> z <= 5 # 2 -> clip z = z) by (intros z Z1 Z2; unfold clip; destruct (leb_case z (5 # 2)) as [[-> H]|[-> H]]; cbv zeta; lebs; lra || reflexivity).
  assert (K : forall a b, 3 # 2 <= a -> a <= 5 # 2 -> 3 # 2 <= b -> b <= 5 # 2 -> a + b <= 4 -> (let c1 := clip a in let c2 := clip b in if Qltb 4 (c1 + c2) then let c1 := 4 * (c1 / (c1 + c2)) in let c2 := 4 * (c2 / (c1 + c2)) in (c1, c2) else (c1, c2)) = (a, b)).
  { intros a b K1 K2 K3 K4 K5. rewrite !CI by auto. cbv zeta. destruct (Qltb 4 (a + b)) eqn:E; qb; [lra|reflexivity]. }
  unfold adapt_c. destruct st as [|[|[|[|[|st]]]]]; rewrite K; try lra; try (split; reflexivity); destruct HS as [[HS HT]|HS]; lra || congruence.
Qed.
(** "the evolutionary factor lies between 0 and 1" is false: with two particles it is (nearly) minus infinity; with one particle the algorithm raises *)
Theorem C78_factor_refuted : (exists f, pso_factor (1 # 1000000) [[0; 1]; [1; 0]] [0; 1] = Some f /\ f < 0) /\ forall tiny r g, pso_factor tiny [r] g = None.
Proof. split; [eexists; split; [reflexivity|reflexivity]|reflexivity]. Qed.
Print Assumptions C78_best. Print Assumptions C78_personal. Print Assumptions C78_move_box. Print Assumptions C78_membership. Print Assumptions C78_strategy_by_factor. Print Assumptions C78_coefficients. Print Assumptions C78_no_rescale.
