(** * C120 (continued): exactness for quadratics, the error for polynomials, the dictionary returned *)
From Coq Require Import Ascii String List Arith Bool Reals Lra Lia.
From Coquelicot Require Import Coquelicot.
From Verif Require Import ListAux P_Perm M_Params P_Params M_Complex Thm_Complex.
Import ListNotations.
Local Open Scope R_scope.

(** ** specification *)
(** polynomials in the variables, and their degree in variable j *)
Fixpoint polynomial (e : ex) : Prop := match e with Var _ | Const _ => True | Add a b | Sub a b | Mul a b => polynomial a /\ polynomial b | _ => False end.
Fixpoint degree (e : ex) (j : nat) : nat := match e with Var k => if (k =? j)%nat then 1%nat else 0%nat | Add a b | Sub a b => Nat.max (degree a j) (degree b j) | Mul a b => (degree a j + degree b j)%nat | _ => 0%nat end.

Fixpoint padd (p q : list R) : list R := match p, q with [], _ => q | _, [] => p | a :: p', b :: q' => (a + b) :: padd p' q' end.
Fixpoint pmul (p q : list R) : list R := match p with [] => [] | a :: p' => padd (map (Rmult a) q) (0 :: pmul p' q) end.
Fixpoint reval (p : list R) (h : R) : R := match p with [] => 0 | a :: p' => a + h * reval p' h end.
Fixpoint ceval (p : list R) (z : cplx) : cplx := match p with [] => (0, 0) | a :: p' => let w := cmul z (ceval p' z) in (a + fst w, snd w) end.
(** coefficients in the displacement of variable j *)
Fixpoint coefs (e : ex) (x : list R) (j : nat) : list R :=
  match e with
  | Var k => if (k =? j)%nat then [nth k x 0; 1] else [nth k x 0]
  | Const r => [r]
  | Add a b => padd (coefs a x j) (coefs b x j)
  | Sub a b => padd (coefs a x j) (map (Rmult (-1)) (coefs b x j))
  | Mul a b => pmul (coefs a x j) (coefs b x j)
  | _ => [0]
  end.
Lemma reval_padd p : forall q h, reval (padd p q) h = reval p h + reval q h.
Proof. induction p as [|a p IH]; intros [|b q] h; cbn [padd reval]; try ring. rewrite IH. ring. Qed.
Lemma reval_scale c p h : reval (map (Rmult c) p) h = c * reval p h.
Proof. induction p as [|a p IH]; cbn [map reval]; [ring|]. rewrite IH. ring. Qed.
Lemma reval_pmul p q h : reval (pmul p q) h = reval p h * reval q h.
Proof. induction p as [|a p IH]; cbn [pmul reval]; [ring|]. rewrite reval_padd, reval_scale. cbn [reval]. rewrite IH. ring. Qed.
Definition cadd (u v : cplx) : cplx := (fst u + fst v, snd u + snd v).
Lemma ceval_padd p : forall q z, ceval (padd p q) z = cadd (ceval p z) (ceval q z).
Proof. induction p as [|a p IH]; intros [|b q] z; unfold cadd, cmul in *; cbn [padd ceval]; apply injective_projections; cbn [fst snd]; try ring; rewrite IH; cbn [fst snd]; unfold cmul; cbn [fst snd]; ring. Qed.
Lemma ceval_scale c p z : ceval (map (Rmult c) p) z = (c * fst (ceval p z), c * snd (ceval p z)).
Proof. induction p as [|a p IH]; cbn [map ceval]; unfold cmul in *; apply injective_projections; cbn [fst snd]; try ring; rewrite IH; cbn [fst snd]; ring. Qed.
Lemma ceval_pmul p q z : ceval (pmul p q) z = cmul (ceval p z) (ceval q z).
Proof.
  induction p as [|a p IH]; cbn [pmul]; [unfold cmul; cbn; apply injective_projections; cbn; ring|]. rewrite ceval_padd, ceval_scale. cbn [ceval]. rewrite IH. unfold cadd, cmul. apply injective_projections; cbn [fst snd]; ring.
Qed.
Lemma length_padd p : forall q, length (padd p q) = Nat.max (length p) (length q).
Proof. induction p as [|a p IH]; intros [|b q]; cbn [padd length]; auto. now rewrite IH. Qed.
Lemma length_pmul p q : (1 <= length q)%nat -> (length (pmul p q) <= length p + length q - 1)%nat.
Proof. intros Hq. induction p as [|a p IH]; cbn [pmul length]; [lia|]. rewrite length_padd, map_length. cbn [length]. lia. Qed.
Lemma coefs_pos e x j : (1 <= length (coefs e x j))%nat.
Proof.
  induction e as [k|r|a IHa b IHb|a IHa b IHb|a IHa b IHb|a IHa b IHb|a IHa|a IHa|a IHa|a IHa|a IHa|a IHa]; cbn [coefs]; try (cbn; lia); try (destruct (k =? j)%nat; cbn; lia); rewrite ?length_padd, ?map_length; try lia.
  destruct (coefs a x j) as [|c p]; [cbn in IHa; lia|]. cbn [pmul]. rewrite length_padd, map_length. lia.
Qed.
Lemma coefs_length e x j : (length (coefs e x j) <= S (degree e j))%nat.
Proof.
  induction e as [k|r|a IHa b IHb|a IHa b IHb|a IHa b IHb|a IHa b IHb|a IHa|a IHa|a IHa|a IHa|a IHa|a IHa]; cbn [coefs degree]; try (cbn; lia); try (destruct (k =? j)%nat; cbn; lia); rewrite ?length_padd, ?map_length; try lia.
  pose proof (length_pmul (coefs a x j) (coefs b x j) (coefs_pos b x j)). lia.
Qed.
Section Poly.
  Variables (x : list R) (j : nat).
  Hypothesis Hj : (j < length x)%nat.
  Lemma coefs_real e h : polynomial e -> ev e (upd x j (nth j x 0 + h)) = reval (coefs e x j) h.
  Proof.
    induction e as [k|r|a IHa b IHb|a IHa b IHb|a IHa b IHb|a IHa b IHb|a IHa|a IHa|a IHa|a IHa|a IHa|a IHa]; cbn [polynomial ev coefs]; intros H; try contradiction.
    - destruct (Nat.eqb_spec k j) as [->|C]; cbn [reval]; [rewrite nth_upd_eq by auto; ring|rewrite nth_upd_neq by auto; ring].
    - cbn. ring.
    - rewrite reval_padd. now rewrite IHa, IHb.
    - rewrite reval_padd, reval_scale, IHa, IHb by tauto. ring.
    - rewrite reval_pmul. now rewrite IHa, IHb.
  Qed.
  Lemma coefs_complex e t : polynomial e -> cev e (perturbed x t j) = ceval (coefs e x j) (0, t).
  Proof.
    induction e as [k|r|a IHa b IHb|a IHa b IHb|a IHa b IHb|a IHa b IHb|a IHa|a IHa|a IHa|a IHa|a IHa|a IHa]; cbn [polynomial cev coefs]; intros H; try contradiction.
    - destruct (Nat.lt_ge_cases k (length x)) as [C|C].
      + rewrite perturbed_nth by auto. destruct (k =? j)%nat; cbn; apply injective_projections; cbn; ring.
      + rewrite perturbed_out by auto. rewrite nth_overflow by auto. destruct (Nat.eqb_spec k j); [lia|]. cbn. apply injective_projections; cbn; ring.
    - cbn. apply injective_projections; cbn; ring.
    - rewrite ceval_padd. destruct H as [Ha Hb]. now rewrite IHa, IHb.
    - rewrite ceval_padd, ceval_scale. destruct H as [Ha Hb]. rewrite IHa, IHb by auto. unfold cadd. apply injective_projections; cbn [fst snd]; ring.
    - rewrite ceval_pmul. destruct H as [Ha Hb]. now rewrite IHa, IHb.
  Qed.
  Lemma reval_ex p h : ex_derive (reval p) h.
  Proof. induction p as [|a p IH]; cbn [reval]; [apply ex_derive_const|]. auto_derive. repeat split; auto. Qed.
  Lemma reval_derive p : is_derive (reval p) 0 (nth 1 p 0).
  Proof.
    destruct p as [|a p]; cbn [reval]; [apply @is_derive_const|]. auto_derive; [repeat split; auto; apply reval_ex|]. destruct p as [|b p]; cbn [nth reval]; ring.
  Qed.
  Lemma coefs_partial e : polynomial e -> partial e x j (nth 1 (coefs e x j) 0).
  Proof.
    intros He. unfold partial. set (xj := nth j x 0).
    apply (is_derive_ext (fun t => reval (coefs e x j) (t - xj))); [intros t; rewrite <- coefs_real by auto; fold xj; do 2 f_equal; ring|].
    pose proof (reval_derive (coefs e x j)) as D. replace 0 with (xj - xj) in D at 1 by ring. set (d := nth 1 (coefs e x j) 0) in *. clearbody d. set (p := coefs e x j) in *. clearbody p.
    auto_derive; [repeat split; apply reval_ex|]. replace (xj + - xj) with (xj - xj) by ring. rewrite (dv _ _ _ D). ring.
  Qed.
End Poly.
Lemma ceval_bound p t : Rabs t <= 1 -> Rabs (fst (ceval p (0, t))) <= fold_right (fun c s => Rabs c + s) 0 p /\ Rabs (snd (ceval p (0, t))) <= fold_right (fun c s => Rabs c + s) 0 p.
Proof.
  intros Ht. induction p as [|a p [IH1 IH2]]; cbn [ceval fold_right fst snd]; [rewrite Rabs_R0; lra|]. unfold cmul. cbn [fst snd]. set (w := ceval p (0, t)) in *. set (s := fold_right _ 0 p) in *. pose proof (Rabs_pos a).
  assert (B : forall v, Rabs v <= s -> Rabs (t * v) <= s) by (intros v Hv; rewrite Rabs_mult; pose proof (Rabs_pos t); pose proof (Rabs_pos v); nra).
  split.
  - replace (a + (0 * fst w - t * snd w)) with (a + - (t * snd w)) by ring. eapply Rle_trans; [apply Rabs_triang|]. rewrite Rabs_Ropp. specialize (B _ IH2). lra.
  - replace (0 * snd w + t * fst w) with (t * fst w) by ring. specialize (B _ IH1). lra.
Qed.
Lemma estimate_coefs e x j eps : (j < length x)%nat -> polynomial e -> eps <> 0 -> estimate e x eps j = match coefs e x j with _ :: c :: _ :: r => c - eps * eps * fst (ceval r (0, eps)) | p => nth 1 p 0 end.
Proof.
  intros Hj He H0. unfold estimate. rewrite (coefs_complex x j Hj e eps He). destruct (coefs e x j) as [|a [|b [|c r]]]; cbn [ceval nth]; unfold cmul; cbn [fst snd]; field; auto.
Qed.
(** C120: for a polynomial of degree at most two in the variable, the estimate is the partial derivative, whatever the step *)
Theorem C120_quadratic : forall e x j eps, (j < length x)%nat -> polynomial e -> (degree e j <= 2)%nat -> eps <> 0 -> partial e x j (estimate e x eps j).
Proof.
  intros e x j eps Hj He Hd H0. rewrite estimate_coefs by auto. pose proof (coefs_partial x j Hj e He) as P. pose proof (coefs_length e x j) as L. destruct (coefs e x j) as [|a [|b [|c [|f r]]]]; cbn [nth] in *; auto.
  - cbn [ceval fst]. now replace (b - eps * eps * 0) with b by ring.
  - cbn [length] in L. lia.
Qed.
(** C120: for any polynomial the error is at most a constant times the square of the step *)
Theorem C120_polynomial : forall e x j, (j < length x)%nat -> polynomial e -> exists d C, partial e x j d /\ forall eps, eps <> 0 -> Rabs eps <= 1 -> Rabs (estimate e x eps j - d) <= C * eps ^ 2.
Proof.
  intros e x j Hj He. exists (nth 1 (coefs e x j) 0), (fold_right (fun c s => Rabs c + s) 0 (coefs e x j)). split; [now apply coefs_partial|]. intros eps H0 H1. rewrite estimate_coefs by auto. pose proof (pow2_ge_0 eps) as Hp.
  assert (S0 : forall p, 0 <= fold_right (fun c s => Rabs c + s) 0 p) by (intros p; induction p as [|c p IH]; cbn [fold_right]; [lra|pose proof (Rabs_pos c); lra]).
  assert (Z : forall p v, Rabs (v - v) <= fold_right (fun c s => Rabs c + s) 0 p * eps ^ 2) by (intros p v; rewrite Rminus_eq_0, Rabs_R0; specialize (S0 p); nra).
  destruct (coefs e x j) as [|a [|b [|c r]]]; cbn [nth]; try apply Z. cbn [fold_right]. destruct (ceval_bound r eps H1) as [B _]. set (w := fst (ceval r (0, eps))) in *. set (s := fold_right _ 0 r) in *.
  replace (b - eps * eps * w - b) with (- (eps ^ 2 * w)) by ring. rewrite Rabs_Ropp, Rabs_mult, (Rabs_right (eps ^ 2)) by lra. pose proof (Rabs_pos a). pose proof (Rabs_pos b). pose proof (Rabs_pos c). nra.
Qed.
