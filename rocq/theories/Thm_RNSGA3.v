(** * C97: R-NSGA-II, ideal and nadir point, preference distance (real arithmetic) *)
From Coq Require Import List Arith Bool Lia Reals Lra.
From Verif Require Import ListAux M_RNSGA.
Import ListNotations.
Local Open Scope R_scope.

Lemma fold_min_spec l : forall x, (fold_left Rmin l x = x \/ In (fold_left Rmin l x) l) /\ fold_left Rmin l x <= x /\ forall y, In y l -> fold_left Rmin l x <= y.
Proof.
  induction l as [|z l IH]; intros x; cbn [fold_left]; [split; [now left|]; split; [lra|intros y []]|].
  destruct (IH (Rmin x z)) as (A1 & A2 & A3). pose proof (Rmin_l x z). pose proof (Rmin_r x z). split; [|split; [lra|]].
  - destruct A1 as [A1|A1]; [|right; now right]. rewrite A1. unfold Rmin. destruct (Rle_dec x z); [now left|right; now left].
  - intros y [<-|Hy]; [lra|auto].
Qed.
Lemma fold_max_spec l : forall x, (fold_left Rmax l x = x \/ In (fold_left Rmax l x) l) /\ x <= fold_left Rmax l x /\ forall y, In y l -> y <= fold_left Rmax l x.
Proof.
  induction l as [|z l IH]; intros x; cbn [fold_left]; [split; [now left|]; split; [lra|intros y []]|].
  destruct (IH (Rmax x z)) as (A1 & A2 & A3). pose proof (Rmax_l x z). pose proof (Rmax_r x z). split; [|split; [lra|]].
  - destruct A1 as [A1|A1]; [|right; now right]. rewrite A1. unfold Rmax. destruct (Rle_dec x z); [right; now left|now left].
  - intros y [<-|Hy]; [lra|auto].
Qed.
(** [lo, hi] are the least and the largest member *)
Definition range_of (l : list R) (p : R * R) : Prop := In (fst p) l /\ In (snd p) l /\ forall x, In x l -> fst p <= x <= snd p.
Lemma range_fold x l : range_of (x :: l) (fold_left Rmin l x, fold_left Rmax l x).
Proof.
  destruct (fold_min_spec l x) as (A1 & A2 & A3). destruct (fold_max_spec l x) as (B1 & B2 & B3). split; [|split]; cbn [fst snd].
  - destruct A1 as [-> | A1]; [now left|now right].
  - destruct B1 as [-> | B1]; [now left|now right].
  - intros y [<-|Hy]; [lra|split; auto].
Qed.
(** the ideal and nadir value of one objective after a run: generations of (all values, values of the first front) *)
Definition points_run (norm : rn_norm) (gens : list (list R * list R)) : option (R * R) := fold_left (fun o g => rn_points norm o (fst g) (snd g)) gens None.
(** C97: normalisation "ever": least and largest value of everything evaluated; "no": 0 and 1; "front": least and largest value of the last first front with at least two members - before there was one, nothing *)
Theorem C97_normalization : forall gens,
  (Forall (fun g => fst g <> []) gens -> match points_run Ever gens with None => gens = [] | Some p => range_of (concat (map fst gens)) p end) /\
  (gens <> [] -> points_run NoNorm gens = Some (0, 1)) /\
  (forall g, match points_run Front (gens ++ [g]) with
             | Some p => (2 <= length (snd g))%nat -> range_of (snd g) p
             | None => forall h, In h (gens ++ [g]) -> (length (snd h) < 2)%nat
             end /\ ((length (snd g) < 2)%nat -> points_run Front (gens ++ [g]) = points_run Front gens)).
Proof.
  intros gens. split; [|split].
  - induction gens as [|g gens IH] using rev_ind; [intros _; reflexivity|]. intros HF. apply Forall_app in HF. destruct HF as [HF1 HF2]. inversion HF2 as [|? ? Hg _]; subst. specialize (IH HF1).
    assert (ST : points_run Ever (gens ++ [g]) = rn_points Ever (points_run Ever gens) (fst g) (snd g)) by (unfold points_run; now rewrite fold_left_app). rewrite ST.
    rewrite map_app, concat_app. cbn [map concat]. rewrite app_nil_r. unfold rn_points. destruct (fst g) as [|x l] eqn:EG; [congruence|].
    destruct (points_run Ever gens) as [[lo hi]|].
    + destruct IH as (I1 & I2 & I3). cbn [fst snd] in *. destruct (fold_min_spec (x :: l) lo) as (A1 & A2 & A3). destruct (fold_max_spec (x :: l) hi) as (B1 & B2 & B3). split; [|split]; cbn [fst snd].
      * apply in_or_app. destruct A1 as [-> | A1]; [now left|now right].
      * apply in_or_app. destruct B1 as [-> | B1]; [now left|now right].
      * intros y Hy. apply in_app_or in Hy. destruct Hy as [Hy|Hy]; [specialize (I3 y Hy); lra|split; auto].
    + subst gens. cbn [map concat app]. apply range_fold.
  - destruct gens as [|g gens _] using rev_ind; [congruence|]. intros _. unfold points_run. rewrite fold_left_app. reflexivity.
  - assert (ST : forall gens g, points_run Front (gens ++ [g]) = rn_points Front (points_run Front gens) (fst g) (snd g)) by (intros gs g; unfold points_run; now rewrite fold_left_app).
    intros g. split.
    + rewrite ST. unfold rn_points. destruct (snd g) as [|x [|y l]] eqn:EG.
      1,2: assert (H : match points_run Front gens with Some _ => True | None => forall h, In h gens -> (length (snd h) < 2)%nat end);
        [clear - ST; induction gens as [|h gens IH] using rev_ind; [intros h []|]; rewrite ST; unfold rn_points; destruct (snd h) as [|a [|b k]] eqn:EH;
           [ destruct (points_run Front gens); [exact Logic.I|]; intros h' Hh; apply in_app_or in Hh; destruct Hh as [Hh|[<-|[]]]; [auto|rewrite EH; cbn; auto]
           | destruct (points_run Front gens); [exact Logic.I|]; intros h' Hh; apply in_app_or in Hh; destruct Hh as [Hh|[<-|[]]]; [auto|rewrite EH; cbn; auto]
           | exact Logic.I ]
        | destruct (points_run Front gens); [intros K; cbn in K; lia|]; intros h' Hh; apply in_app_or in Hh; destruct Hh as [Hh|[<-|[]]]; [auto|rewrite EG; cbn; auto]].
      intros _. apply range_fold.
    + intros Hs. rewrite ST. unfold rn_points. destruct (snd g) as [|x [|y l]]; [reflexivity|reflexivity|cbn in Hs; lia].
Qed.

(** the sum inside the root, written out *)
Definition weighted_sq (w sc a b : list R) : R := rsumR (map2 Rmult (map (fun x => x * x) (map2 Rdiv (map2 Rminus a b) sc)) w).
Lemma weighted_sq_cons w ws s sc x a y b : weighted_sq (w :: ws) (s :: sc) (x :: a) (y :: b) = ((x - y) / s) * ((x - y) / s) * w + weighted_sq ws sc a b.
Proof. reflexivity. Qed.
Lemma weighted_sq_sym w : forall sc a b, length sc = length w -> length a = length w -> length b = length w -> weighted_sq w sc a b = weighted_sq w sc b a.
Proof.
  induction w as [|w ws IH]; intros [|s sc] [|x a] [|y b] L1 L2 L3; try discriminate; [reflexivity|]. rewrite !weighted_sq_cons, (IH sc a b) by (cbn in *; lia). unfold Rdiv. ring.
Qed.
Lemma weighted_sq_self w : forall sc a, length sc = length w -> length a = length w -> weighted_sq w sc a a = 0.
Proof. induction w as [|w ws IH]; intros [|s sc] [|x a] L1 L2; try discriminate; [reflexivity|]. rewrite weighted_sq_cons, IH by (cbn in *; lia). unfold Rdiv. ring. Qed.
Lemma weighted_sq_pos w : forall sc a b, Forall (fun x => 0 <= x) w -> length sc = length w -> length a = length w -> length b = length w -> 0 <= weighted_sq w sc a b.
Proof.
  induction w as [|w ws IH]; intros [|s sc] [|x a] [|y b] HW L1 L2 L3; try discriminate; [cbn; lra|]. inversion HW; subst. rewrite weighted_sq_cons. assert (0 <= weighted_sq ws sc a b) by (apply IH; cbn in *; auto; lia).
  assert (0 <= (x - y) / s * ((x - y) / s) * w); [|lra]. apply Rmult_le_pos; [apply Rle_0_sqr|assumption].
Qed.
Lemma weighted_sq_zero w : forall sc a b, Forall (fun x => 0 < x) w -> Forall (fun x => x <> 0) sc -> length sc = length w -> length a = length w -> length b = length w -> weighted_sq w sc a b = 0 -> a = b.
Proof.
  induction w as [|w ws IH]; intros [|s sc] [|x a] [|y b] HW HS L1 L2 L3; try discriminate; [reflexivity|]. inversion HW; inversion HS; subst. rewrite weighted_sq_cons. intros E.
  assert (P : 0 <= weighted_sq ws sc a b). { apply weighted_sq_pos; cbn in *; auto; try lia. eapply Forall_impl; [|eassumption]. intros z Hz. cbn in Hz. lra. }
  assert (Q : 0 <= (x - y) / s * ((x - y) / s) * w) by (apply Rmult_le_pos; [apply Rle_0_sqr|lra]).
  assert (Z : (x - y) / s * ((x - y) / s) * w = 0) by lra. f_equal; [|apply (IH sc); cbn in *; auto; try lia; lra].
  apply Rmult_integral in Z. destruct Z as [Z|Z]; [|lra]. assert (Z' : (x - y) / s = 0) by (apply Rmult_integral in Z; tauto). unfold Rdiv in Z'. apply Rmult_integral in Z'. destruct Z' as [Z'|Z']; [lra|]. exfalso. apply (Rinv_neq_0_compat s); assumption.
Qed.
(** C97: the distance is not negative, symmetric, zero exactly between equal points (positive weights, no objective with nadir = ideal); for the default weights it is the Euclidean distance of the
    normalised points *)
Theorem C97_distance : forall w sc a b, length sc = length w -> length a = length w -> length b = length w ->
  0 <= pref_dist w sc a b /\ pref_dist w sc a b = pref_dist w sc b a /\ pref_dist w sc a a = 0 /\
  (Forall (fun x => 0 < x) w -> Forall (fun x => x <> 0) sc -> pref_dist w sc a b = 0 -> a = b) /\
  (w <> [] -> w = repeat (/ INR (length w)) (length w) -> pref_dist w sc a b = sqrt (rsumR (map (fun x => x * x) (map2 Rdiv (map2 Rminus a b) sc)))).
Proof.
  intros w sc a b L1 L2 L3. unfold pref_dist. fold (weighted_sq w sc a b) (weighted_sq w sc b a) (weighted_sq w sc a a).
  split; [apply sqrt_pos|]. split; [now rewrite weighted_sq_sym|]. split; [rewrite weighted_sq_self by auto; now rewrite Rmult_0_l, sqrt_0|]. split.
  - intros HW HS E. assert (P : 0 <= weighted_sq w sc a b) by (apply weighted_sq_pos; auto; eapply Forall_impl; [|exact HW]; intros z Hz; cbn in Hz; lra).
    apply sqrt_eq_0 in E; [|apply Rmult_le_pos; [exact P|apply pos_INR]]. apply Rmult_integral in E. destruct E as [E|E]; [now apply (weighted_sq_zero w sc)|].
    destruct w as [|w0 ws]; [destruct a, b; try discriminate; reflexivity|]. exfalso. apply (not_0_INR (length (w0 :: ws))); [discriminate|exact E].
  - intros Hne HW. f_equal. set (k := INR (length w)) in *. assert (Hk : k <> 0) by (apply not_0_INR; destruct w; [congruence|discriminate]).
    assert (G : forall u v, length u = length v -> v = repeat (/ k) (length v) -> rsumR (map2 Rmult u v) = rsumR u * / k).
    { induction u as [|x u IH]; intros [|y v] L E; try discriminate; [cbn; lra|]. change (rsumR (map2 Rmult (x :: u) (y :: v))) with (x * y + rsumR (map2 Rmult u v)). change (rsumR (x :: u)) with (x + rsumR u). cbn [length repeat] in E. pose proof (f_equal (hd 0) E) as E1. cbn in E1. pose proof (f_equal (@tl R) E) as E2. cbn [tl] in E2. rewrite IH by (cbn in L; auto; lia). rewrite E1. ring. }
    unfold weighted_sq. rewrite G; [field; exact Hk| |exact HW]. rewrite map_length. assert (ML : forall (u v : list R) (g : R -> R -> R), length u = length v -> length (map2 g u v) = length v) by (induction u as [|x u IH]; intros [|y v] g L; try discriminate; cbn; [reflexivity|f_equal; apply IH; cbn in L; lia]).
    rewrite ML; [exact L1|]. rewrite ML; lia.
Qed.
