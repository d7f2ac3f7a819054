(** * C68: Wolfe line search *)
From Coq Require Import List Reals Lra Psatz Lia.
From Verif Require Import M_Wolfe.
Local Open Scope R_scope.

(** the strong Wolfe conditions at step [a] *)
Definition sufficient_decrease (phi dphi : R -> R) (c1 a : R) : Prop := phi a <= phi 0 + c1 * a * dphi 0.
Definition curvature (dphi : R -> R) (c2 a : R) : Prop := Rabs (dphi a) <= c2 * Rabs (dphi 0).

Lemma zoom_spec phi dphi c1 c2 fuel : forall lo hi a, zoom phi dphi c1 c2 fuel lo hi = Some a -> 0 <= lo -> 0 <= hi -> 0 < lo + hi ->
  phi a <= phi 0 + c1 * a * dphi 0 /\ Rabs (dphi a) <= - c2 * dphi 0 /\ 0 < a.
Proof.
  induction fuel as [|fuel IH]; intros lo hi a H Hl Hh Hs; [discriminate|]. cbn [zoom] in H. cbv zeta in H.
  set (m := (hi + lo) / 2) in *. assert (Hm : 0 < m) by (unfold m; lra).
  destruct (Rgt_dec (phi m) (phi 0 + c1 * m * dphi 0)) as [C|C]; [apply IH in H; auto; lra|].
  destruct (Rgt_dec (phi m) (phi lo)) as [D|D]; [apply IH in H; auto; lra|].
  destruct (Rle_dec (Rabs (dphi m)) (- c2 * dphi 0)) as [E|E]; [injection H as <-; repeat split; auto; lra|].
  destruct (Rge_dec (dphi m * (hi - lo)) 0) as [G|G]; apply IH in H; auto; lra.
Qed.
(** which points the search can return *)
Lemma go_spec phi dphi c1 c2 fuel : forall n first last cur a, wolfe_go phi dphi c1 c2 fuel n first last cur = Evaluated a -> 0 <= last -> 1 <= cur ->
  Rabs (dphi a) <= - c2 * dphi 0 /\ 0 < a /\ (phi a <= phi 0 + c1 * a * dphi 0 \/ (1 <= a /\ phi a <= phi 0 + c1 * dphi 0)).
Proof.
  induction n as [|n IH]; intros first last cur a H Hl Hc; [discriminate|]. cbn [wolfe_go] in H.
  assert (Z : forall lo hi, zoomed (zoom phi dphi c1 c2 fuel lo hi) = Evaluated a -> 0 <= lo -> 0 <= hi -> 0 < lo + hi -> 
     Rabs (dphi a) <= - c2 * dphi 0 /\ 0 < a /\ (phi a <= phi 0 + c1 * a * dphi 0 \/ (1 <= a /\ phi a <= phi 0 + c1 * dphi 0))).
  { intros lo hi E A1 A2 A3. destruct (zoom phi dphi c1 c2 fuel lo hi) as [y|] eqn:Ez; [|discriminate]. cbn in E. injection E as <-. apply zoom_spec in Ez; auto. tauto. }
  destruct (Rgt_dec (phi cur) (phi 0 + c1 * dphi 0)) as [C|C]; [apply Z in H; auto; lra|].
  assert (G : (if Rle_dec (Rabs (dphi cur)) (- c2 * dphi 0) then Evaluated cur else if Rge_dec (dphi cur) 0 then zoomed (zoom phi dphi c1 c2 fuel cur last) else wolfe_go phi dphi c1 c2 fuel n false cur (2 * cur)) = Evaluated a ->
     Rabs (dphi a) <= - c2 * dphi 0 /\ 0 < a /\ (phi a <= phi 0 + c1 * a * dphi 0 \/ (1 <= a /\ phi a <= phi 0 + c1 * dphi 0))).
  { intros E. destruct (Rle_dec (Rabs (dphi cur)) (- c2 * dphi 0)) as [D|D]; [injection E as <-; split; auto; split; [lra|]; right; lra|].
    destruct (Rge_dec (dphi cur) 0) as [K|K]; [apply Z in E; auto; lra|]. apply IH in E; auto; lra. }
  destruct first; [auto|]. destruct (Rge_dec (phi last) (phi cur)) as [D|D]; [apply Z in H; auto; lra|auto].
Qed.

(** whenever the search returns an evaluated point for a descent direction: the step is positive, the curvature condition holds, and the
    point is strictly better than the start; the sufficient decrease is guaranteed for steps up to 1, beyond only that of the step 1 *)
Theorem C68_result_partial : forall phi dphi c1 c2 fuel max_iter a, dphi 0 < 0 -> 0 < c1 -> 0 < c2 ->
  wolfe_line_search phi dphi c1 c2 fuel max_iter = Evaluated a ->
  0 < a /\ curvature dphi c2 a /\ phi a < phi 0 /\ (a <= 1 -> sufficient_decrease phi dphi c1 a) /\ phi a <= phi 0 + c1 * Rmin a 1 * dphi 0.
Proof.
  intros phi dphi c1 c2 fuel max_iter a Hd H1 H2 H. apply go_spec in H; [|lra|lra]. destruct H as (Hc & Ha & Hs). split; auto. split; [|split; [|split]].
  - unfold curvature. rewrite (Rabs_left (dphi 0)) by lra. lra.
  - assert (c1 * a * dphi 0 < 0) by (assert (0 < c1 * a) by nra; nra). assert (c1 * dphi 0 < 0) by nra. lra.
  - intros Hle. unfold sufficient_decrease. destruct Hs as [Hs|[Hs1 Hs2]]; auto. assert (a = 1) by lra. subst a. lra.
  - destruct (Rle_dec a 1) as [L|L]; [rewrite Rmin_left by lra|rewrite Rmin_right by lra].
    + destruct Hs as [Hs|[Hs1 Hs2]]; auto. assert (a = 1) by lra. subst a. lra.
    + destruct Hs as [Hs|[Hs1 Hs2]]; [|lra]. assert (c1 * a * dphi 0 <= c1 * 1 * dphi 0); [|lra]. assert (c1 * 1 <= c1 * a) by nra. nra.
Qed.
Print Assumptions C68_result_partial.
(** a run which returns: phi(x) = x^2 - x accepts the minimum at 1/2 *)
Example C68_ex k m : wolfe_line_search (fun x => x * x - x) (fun x => 2 * x - 1) 0.1 0.9 (S k) (S m) = Evaluated (1 / 2).
Proof.
  unfold wolfe_line_search. cbn [wolfe_go]. destruct (Rgt_dec _ _) as [C|C]; [|lra]. cbn [zoom]. cbv zeta. replace ((1 + 0) / 2) with (1 / 2) by lra.
  destruct (Rgt_dec _ _) as [D|D]; [lra|]. destruct (Rgt_dec (1 / 2 * (1 / 2) - 1 / 2) _) as [E|E]; [lra|].
  replace (2 * (1 / 2) - 1) with 0 by lra. rewrite Rabs_R0. destruct (Rle_dec 0 _) as [G|G]; [reflexivity|lra].
Qed.

(** "the returned step satisfies the Wolfe conditions" is false: the test in the loop forgets the step length.  The counterexample is a polynomial and its
    derivative *)
Definition poly (x : R) : R := - x + 619 / 100 * (x * x) - 507 / 50 * (x * x * x) + 149 / 25 * (x * x * x * x) - 29 / 25 * (x * x * x * x * x).
Definition dpoly (x : R) : R := -1 + 619 / 50 * x - 1521 / 50 * (x * x) + 596 / 25 * (x * x * x) - 145 / 25 * (x * x * x * x).
Lemma dpoly_ok x : derivable_pt_lim poly x (dpoly x).
Proof.
  unfold poly.
  assert (P : forall k, derivable_pt_lim (fun x => x ^ k) x (INR k * x ^ pred k)) by (intros; apply derivable_pt_lim_pow).
  assert (Q : derivable_pt_lim (fun x => - 1 * x ^ 1 + 619 / 100 * x ^ 2 + - (507 / 50) * x ^ 3 + 149 / 25 * x ^ 4 + - (29 / 25) * x ^ 5) x
     (- 1 * (INR 1 * x ^ 0) + 619 / 100 * (INR 2 * x ^ 1) + - (507 / 50) * (INR 3 * x ^ 2) + 149 / 25 * (INR 4 * x ^ 3) + - (29 / 25) * (INR 5 * x ^ 4))).
  { repeat (apply (derivable_pt_lim_plus (fun x => _) (fun x => _)); [|apply (derivable_pt_lim_scal (fun x => x ^ _)); apply P]). apply (derivable_pt_lim_scal (fun x => x ^ _)). apply P. }
  replace (dpoly x) with (- 1 * (INR 1 * x ^ 0) + 619 / 100 * (INR 2 * x ^ 1) + - (507 / 50) * (INR 3 * x ^ 2) + 149 / 25 * (INR 4 * x ^ 3) + - (29 / 25) * (INR 5 * x ^ 4)).
  - intros e He. destruct (Q e He) as (d & Hd). exists d. intros h Hh Hl. specialize (Hd h Hh Hl). cbn beta in Hd.
    match goal with |- Rabs (?A) < e => match type of Hd with Rabs ?B < e => replace A with B; auto end end. field. auto.
  - unfold dpoly. cbn. lra.
Qed.
Theorem C68_wolfe_refuted : ~ (forall phi dphi c1 c2 fuel max_iter a, (forall x, derivable_pt_lim phi x (dphi x)) -> dphi 0 < 0 -> 0 < c1 < c2 -> c2 < 1 ->
  wolfe_line_search phi dphi c1 c2 fuel max_iter = Evaluated a -> sufficient_decrease phi dphi c1 a).
Proof.
  intros H. specialize (H poly dpoly (1 / 10) (1 / 2) O 10%nat 2 dpoly_ok). unfold sufficient_decrease in H.
  assert (P0 : poly 0 = 0) by (unfold poly; lra). assert (D0 : dpoly 0 = -1) by (unfold dpoly; lra).
  assert (P1 : poly 1 = - (15 / 100)) by (unfold poly; lra). assert (D1 : dpoly 1 = -1) by (unfold dpoly; lra).
  assert (P2 : poly 2 = - (12 / 100)) by (unfold poly; lra). assert (D2 : dpoly 2 = 0) by (unfold dpoly; lra).
  rewrite P0, D0, P2 in H. assert (- (12 / 100) <= 0 + 1 / 10 * 2 * -1); [|lra]. apply H; try lra.
  unfold wolfe_line_search. cbn [wolfe_go]. rewrite P0, D0, P1. destruct (Rgt_dec _ _) as [C|C]; [lra|]. rewrite D1, Rabs_left by lra. destruct (Rle_dec _ _) as [D|D]; [lra|].
  destruct (Rge_dec _ _) as [E|E]; [lra|]. replace (2 * 1) with 2 by lra. rewrite P2. destruct (Rgt_dec _ _) as [F|F]; [lra|]. destruct (Rge_dec _ _) as [G|G]; [lra|].
  rewrite D2, Rabs_R0. destruct (Rle_dec 0 _) as [K|K]; [reflexivity|lra].
Qed.
Print Assumptions C68_wolfe_refuted.

(** the search does not always return: on a decreasing linear function (the reversed comparison in the loop starts a zoom that has nothing to find) *)
Lemma zoom_linear c1 c2 fuel : 0 < c1 < 1 -> c2 < 1 -> forall lo hi, 0 <= lo < hi -> zoom (fun x => - x) (fun _ => -1) c1 c2 fuel lo hi = None.
Proof.
  intros H1 H2. induction fuel as [|fuel IH]; intros lo hi H; auto. cbn [zoom]. cbv zeta. set (m := (hi + lo) / 2). assert (lo < m < hi) by (unfold m; lra).
  destruct (Rgt_dec _ _) as [C|C]; [nra|]. destruct (Rgt_dec _ _) as [D|D]; [lra|]. rewrite Rabs_left by lra. destruct (Rle_dec _ _) as [E|E]; [lra|].
  destruct (Rge_dec _ _) as [G|G]; [lra|]. apply IH. lra.
Qed.
Theorem C68_diverges : forall c1 c2 max_iter, 0 < c1 < c2 -> c2 < 1 -> (2 <= max_iter)%nat ->
  forall fuel, wolfe_line_search (fun x => - x) (fun _ => -1) c1 c2 fuel max_iter = StillRunning.
Proof.
  intros c1 c2 [|[|n]] H1 H2 Hn fuel; try lia. unfold wolfe_line_search. cbn [wolfe_go]. destruct (Rgt_dec _ _) as [C|C]; [lra|]. rewrite Rabs_left by lra. destruct (Rle_dec _ _) as [D|D]; [lra|].
  destruct (Rge_dec _ _) as [E|E]; [lra|]. destruct (Rgt_dec _ _) as [F|F]; [lra|]. destruct (Rge_dec _ _) as [G|G]; [|lra]. rewrite zoom_linear; auto; lra.
Qed.
Print Assumptions C68_diverges.

(** when the iterations are used up the point returned was never evaluated *)
Theorem C68_not_evaluated_refuted : ~ (forall phi dphi c1 c2 fuel max_iter a, (1 <= max_iter)%nat -> dphi 0 < 0 -> wolfe_line_search phi dphi c1 c2 fuel max_iter <> NotEvaluated a).
Proof.
  intros H. apply (H (fun x => - x) (fun _ => -1) (1 / 10) (1 / 2) O 1%nat (2 * 1) ltac:(lia) ltac:(lra)). unfold wolfe_line_search. cbn [wolfe_go]. destruct (Rgt_dec _ _) as [C|C]; [lra|]. rewrite Rabs_left by lra.
  destruct (Rle_dec _ _) as [D|D]; [lra|]. destruct (Rge_dec _ _) as [E|E]; [lra|]. reflexivity.
Qed.
Print Assumptions C68_not_evaluated_refuted.
