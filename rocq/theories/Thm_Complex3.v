(** * C120 (continued): the dictionary returned *)
From Coq Require Import Ascii String List Arith Bool Reals Lra Lia.
From Coquelicot Require Import Coquelicot.
From Verif Require Import ListAux P_Perm M_Params P_Params M_Complex Thm_Complex Thm_Complex2.
Import ListNotations.
Local Open Scope R_scope.

Notation store := (list (string * outv)).
Definition dname (n : string) : string := ("d" ++ n)%string.
Lemma dname_inj a b : dname a = dname b -> a = b.
Proof. intros H. now injection H. Qed.
Definition grads_at (out : store) (n : string) (l : list (option (list (list R)))) : Prop := dget out (dname n) = Some (Grads l).
Lemma fold_none {A} (i : nat) (gs : list (string * A)) (f : nat -> option store -> string * A -> option store) : (forall g, f i None g = None) -> fold_left (f i) gs None = None.
Proof. intros Hf. induction gs as [|g gs IH]; cbn [fold_left]; [reflexivity|]. now rewrite Hf. Qed.
(** one point: every gradient is stored *)
Lemma inner_ok i gs : forall out, NoDup (map fst gs) -> (forall n, In n (map fst gs) -> exists l, grads_at out n l) ->
  exists out', fold_left (set_gradient i) gs (Some out) = Some out' /\
    (forall k, ~ In k (map dname (map fst gs)) -> dget out' k = dget out k) /\
    (forall n v l, In (n, v) gs -> grads_at out n l -> grads_at out' n (upd l i (Some v))).
Proof.
  induction gs as [|[n v] gs IH]; cbn [map fst fold_left]; intros out ND H.
  - exists out. split; [auto|]. split; [auto|]. intros n v l [].
  - inversion ND as [|? ? Hn ND']; subst. destruct (H n (or_introl eq_refl)) as [l Hl]. unfold grads_at in Hl. cbn [set_gradient fst snd]. fold (dname n). rewrite Hl. set (out1 := dset out (dname n) _).
    assert (E1 : forall k, dget out1 k = if String.eqb (dname n) k then Some (Grads (upd l i (Some v))) else dget out k) by (intros k; unfold out1; apply dget_dset).
    assert (Oth : forall m, m <> n -> dget out1 (dname m) = dget out (dname m)).
    { intros m Hm. rewrite E1. destruct (String.eqb_spec (dname n) (dname m)) as [E|E]; [apply dname_inj in E; congruence|reflexivity]. }
    destruct (IH out1 ND') as (out' & F & K & G).
    { intros m Hm. destruct (H m (or_intror Hm)) as [l' Hl']. exists l'. unfold grads_at. rewrite Oth; auto. intros ->. contradiction. }
    exists out'. split; [exact F|]. split.
    + intros k Hk. rewrite K by (intros C; apply Hk; now right). rewrite E1. destruct (String.eqb_spec (dname n) k) as [E|E]; [|reflexivity]. exfalso. apply Hk. now left.
    + intros m w lm [E|Hin] Hm.
      * injection E as <- <-. unfold grads_at in *. rewrite K. { rewrite E1, String.eqb_refl. congruence. }
        intros C. apply in_map_iff in C. destruct C as (m' & Em & Hm'). apply dname_inj in Em. subst. contradiction.
      * apply G; auto. unfold grads_at in *. rewrite Oth; auto. intros ->. apply Hn. apply in_map_iff. exists (n, w). auto.
Qed.
Lemma inner_none i gs : forall out, NoDup (map fst gs) -> (exists n, In n (map fst gs) /\ dget out (dname n) = None) -> fold_left (set_gradient i) gs (Some out) = None.
Proof.
  induction gs as [|[n v] gs IH]; cbn [map fst fold_left]; intros out ND (m & Hm & Em); [destruct Hm|]. inversion ND as [|? ? Hn ND']; subst.
  assert (FN : fold_left (set_gradient i) gs None = None) by (apply fold_none; reflexivity).
  cbn [set_gradient fst snd]. fold (dname n). destruct Hm as [->|Hm]; [now rewrite Em|].
  destruct (dget out (dname n)) as [[r|l]|]; try exact FN. apply IH; auto. exists m. split; auto. rewrite dget_dset. destruct (String.eqb_spec (dname n) (dname m)) as [E|E]; [apply dname_inj in E; subst; contradiction|exact Em].
Qed.
Lemma complex_gradient_names prob x eps : map fst (complex_gradient prob x eps) = map fst prob.
Proof. unfold complex_gradient. rewrite map_map. apply map_ext. reflexivity. Qed.
Definition matrix (es : list ex) (x : list R) (eps : R) : list (list R) := map (fun e => map (fun j => estimate e x eps j) (seq 0 (length x))) es.
Lemma complex_gradient_In prob x eps n es : In (n, es) prob -> In (n, matrix es x eps) (complex_gradient prob x eps).
Proof.
  intros H. unfold complex_gradient. apply in_map_iff. exists (n, es). split; [|exact H]. cbn [fst snd]. f_equal. unfold matrix.
  apply (nth_ext _ _ [] []); [now rewrite !map_length, seq_length|]. intros m Hm. rewrite map_length, seq_length in Hm. rewrite nth_map_seq0 by auto.
  rewrite (nth_indep (map _ es) [] ((fun e => map (fun j => estimate e x eps j) (seq 0 (length x))) (Const 0))) by (rewrite map_length; auto). rewrite (map_nth (fun e => map (fun j => estimate e x eps j) (seq 0 (length x)))).
  apply map_ext_in. intros j Hj. apply in_seq in Hj. rewrite nth_map_seq0 by lia. unfold estimate. f_equal. f_equal.
  rewrite (nth_indep (map _ es) (0, 0) ((fun e => cev e (perturbed x eps j)) (Const 0))) by (rewrite map_length; auto). now rewrite (map_nth (fun e => cev e (perturbed x eps j))).
Qed.
(** all points *)
Lemma outer_ok prob eps N : NoDup (map fst prob) -> forall X a out, (a + length X <= N)%nat -> (forall n, In n (map fst prob) -> exists l, grads_at out n l /\ length l = N) ->
  exists out', fold_left (fun out ix => fold_left (set_gradient (fst ix)) (complex_gradient prob (snd ix) eps) out) (combine (seq a (length X)) X) (Some out) = Some out' /\
    (forall k, ~ In k (map dname (map fst prob)) -> dget out' k = dget out k) /\
    (forall n es l, In (n, es) prob -> grads_at out n l -> exists l', grads_at out' n l' /\ length l' = N /\
       forall i, nth i l' None = if (a <=? i)%nat && (i <? a + length X)%nat then Some (matrix es (nth (i - a) X []) eps) else nth i l None).
Proof.
  intros ND. induction X as [|x X IH]; cbn [length seq combine fold_left fst snd]; intros a out Ha H.
  - exists out. split; [auto|]. split; [auto|]. intros n es l Hin Hl. exists l. split; auto. split.
    + destruct (H n) as (l0 & Hl0 & L0); [apply in_map_iff; now exists (n, es)|]. unfold grads_at in *. congruence.
    + intros i. rewrite Nat.add_0_r. destruct (Nat.leb_spec a i); cbn [andb]; auto. destruct (Nat.ltb_spec i a); auto; lia.
  - destruct (inner_ok a (complex_gradient prob x eps) out) as (out1 & F1 & K1 & G1); rewrite ?complex_gradient_names in *; auto.
    { intros n Hn. destruct (H n Hn) as (l & Hl & _). eauto. }
    rewrite F1. destruct (IH (S a) out1) as (out' & F & K & G); [lia| |].
    { intros n Hn. destruct (H n Hn) as (l & Hl & L). apply in_map_iff in Hn. destruct Hn as ([n' es] & <- & Hin). cbn [fst] in *. exists (upd l a (Some (matrix es x eps))). split; [|now rewrite length_upd]. eapply G1; eauto. now apply complex_gradient_In. }
    exists out'. split; [exact F|]. split; [intros k Hk; rewrite K, K1; auto|]. intros n es l Hin Hl.
    assert (L : length l = N). { destruct (H n) as (l0 & Hl0 & L0); [apply in_map_iff; now exists (n, es)|]. unfold grads_at in *. congruence. }
    destruct (G n es (upd l a (Some (matrix es x eps)))) as (l' & Hl' & L' & N'); [exact Hin|eapply G1; eauto; now apply complex_gradient_In|]. exists l'. split; auto. split; auto. intros i. rewrite N'.
    destruct (Nat.eq_dec i a) as [->|C].
    + destruct (Nat.leb_spec (S a) a); [lia|]. cbn [andb]. rewrite nth_upd_eq by lia. rewrite Nat.leb_refl. destruct (Nat.ltb_spec a (a + S (length X))); [|lia]. cbn [andb]. now rewrite Nat.sub_diag.
    + destruct (Nat.leb_spec (S a) i), (Nat.leb_spec a i); try lia; cbn [andb].
      * replace (a + S (length X))%nat with (S a + length X)%nat by lia. destruct (i <? S a + length X)%nat; [|now rewrite nth_upd_neq by auto]. replace (i - a)%nat with (S (i - S a)) by lia. reflexivity.
      * now rewrite nth_upd_neq by auto.
Qed.
(** the output before the gradients are set *)
Lemma vals_fold X : forall prob out n, NoDup (map fst prob) ->
  dget (fold_left (fun (out : store) ne => dset out (fst ne) (Vals (map (fun x => map (fun e => ev e x) (snd ne)) X))) prob out) n =
  match dget prob n with Some es => Some (Vals (map (fun x => map (fun e => ev e x) es) X)) | None => dget out n end.
Proof.
  induction prob as [|[k es] prob IH]; cbn [fold_left map fst snd dget]; intros out n ND; [reflexivity|]. inversion ND as [|? ? Hk ND']; subst. rewrite IH by auto. rewrite dget_dset.
  destruct (String.eqb_spec k n) as [->|C]; [|reflexivity]. destruct (dget prob n) as [es'|] eqn:E; [|reflexivity]. exfalso. apply Hk. apply dget_In in E. apply in_map_iff. now exists (n, es').
Qed.
Lemma names_fold (N : nat) : forall names (out : store) n,
  dget (fold_left (fun out n => match dget out n with Some _ => out | None => dset out n (Grads (repeat None N)) end) names out) n =
  match dget out n with Some v => Some v | None => if in_dec string_dec n names then Some (Grads (repeat None N)) else None end.
Proof.
  induction names as [|k names IH]; cbn [fold_left]; intros out n; [now destruct (dget out n)|]. rewrite IH. destruct (dget out k) as [v|] eqn:Ek.
  - destruct (dget out n) as [w|] eqn:En; [reflexivity|]. destruct (in_dec string_dec n names) as [i1|n1], (in_dec string_dec n (k :: names)) as [i2|n2]; auto; exfalso; [apply n2; now right|destruct i2 as [->|i2]; [congruence|contradiction]].
  - rewrite dget_dset. destruct (String.eqb_spec k n) as [->|C].
    + rewrite Ek. destruct (in_dec string_dec n (n :: names)) as [|n2]; [reflexivity|exfalso; apply n2; now left].
    + destruct (dget out n) as [w|]; [reflexivity|]. destruct (in_dec string_dec n names) as [i1|n1], (in_dec string_dec n (k :: names)) as [i2|n2]; auto; exfalso; [apply n2; now right|destruct i2 as [->|i2]; [congruence|contradiction]].
Qed.
Lemma problem_do_get prob names X n : NoDup (map fst prob) -> dget (problem_do prob names X) n =
  match dget prob n with Some es => Some (Vals (map (fun x => map (fun e => ev e x) es) X)) | None => if in_dec string_dec n names then Some (Grads (repeat None (length X))) else None end.
Proof. intros ND. unfold problem_do. rewrite names_fold, vals_fold by auto. cbn [dget]. now destruct (dget prob n). Qed.

(** ** specification *)
(** a problem sets every name once, and none of them is "d" followed by another *)
Definition well_named (prob : problem) : Prop := NoDup (map fst prob) /\ forall a b, In a (map fst prob) -> In b (map fst prob) -> ("d" ++ a)%string <> b.

(** C120: evaluating at least one point succeeds if and only if, for every name the problem sets, the gradient of that name is asked for *)
Theorem C120_keys : forall prob eps names X, well_named prob -> X <> [] -> (gradient_do prob eps names X <> None <-> forall n, In n (map fst prob) -> In ("d" ++ n)%string names).
Proof.
  intros prob eps names X [ND HC] HX. unfold gradient_do.
  assert (D : forall n, In n (map fst prob) -> dget (problem_do prob names X) (dname n) = if in_dec string_dec (dname n) names then Some (Grads (repeat None (length X))) else None).
  { intros n Hn. rewrite problem_do_get by auto. destruct (dget prob (dname n)) as [es|] eqn:E; [|reflexivity]. exfalso. apply dget_In in E. apply (HC n (dname n)); auto. apply in_map_iff. now exists (dname n, es). }
  split.
  - intros Hs n Hn. change ("d" ++ n)%string with (dname n). destruct (in_dec string_dec (dname n) names) as [|C]; auto. exfalso. apply Hs. destruct X as [|x X]; [contradiction|]. cbn [length seq combine fold_left fst snd].
    rewrite inner_none; rewrite ?complex_gradient_names; auto.
    + generalize (combine (seq 1 (length X)) X). intros L. induction L as [|ix L IH]; cbn [fold_left]; [reflexivity|]. rewrite fold_none; auto.
    + exists n. split; auto. rewrite D by auto. destruct (in_dec string_dec (dname n) names); [contradiction|reflexivity].
  - intros H. destruct (outer_ok prob eps (length X) ND X 0 (problem_do prob names X)) as (out' & F & _); [lia| |now rewrite F].
    intros n Hn. exists (repeat None (length X)). split; [|apply repeat_length]. unfold grads_at. rewrite D by auto. destruct (in_dec string_dec (dname n) names) as [|C]; [reflexivity|]. exfalso. apply C. now apply H.
Qed.
(** C120: then the values of the problem are returned, and under "d" and the name, for every point, output and variable, the estimate for that point, output and variable *)
Theorem C120_entries : forall prob eps names X out, well_named prob -> X <> [] -> gradient_do prob eps names X = Some out -> forall n es, In (n, es) prob ->
  dget out n = Some (Vals (map (fun x => map (fun e => ev e x) es) X)) /\
  exists g, dget out ("d" ++ n)%string = Some (Grads g) /\ length g = length X /\
    forall i, (i < length X)%nat -> exists M, nth i g None = Some M /\ length M = length es /\ forall m, (m < length es)%nat ->
      length (nth m M []) = length (nth i X []) /\ forall j, (j < length (nth i X []))%nat -> nth j (nth m M []) 0 = estimate (nth m es (Const 0)) (nth i X []) eps j.
Proof.
  intros prob eps names X out [ND HC] HX Hout n es Hin.
  assert (K0 : forall n, In n (map fst prob) -> In ("d" ++ n)%string names) by (apply (proj1 (C120_keys prob eps names X (conj ND HC) HX)); congruence).
  assert (D : forall n, In n (map fst prob) -> grads_at (problem_do prob names X) n (repeat None (length X))).
  { intros m Hm. unfold grads_at. rewrite problem_do_get by auto. destruct (dget prob (dname m)) as [es'|] eqn:E. { exfalso. apply dget_In in E. apply (HC m (dname m)); auto. apply in_map_iff. now exists (dname m, es'). }
    destruct (in_dec string_dec (dname m) names) as [|C]; [reflexivity|]. exfalso. apply C. now apply K0. }
  destruct (outer_ok prob eps (length X) ND X 0 (problem_do prob names X)) as (out' & F & K & G); [lia| |].
  { intros m Hm. exists (repeat None (length X)). split; [now apply D|apply repeat_length]. }
  unfold gradient_do in Hout. rewrite F in Hout. injection Hout as ->. assert (Hn : In n (map fst prob)) by (apply in_map_iff; now exists (n, es)). split.
  - rewrite K.
    + rewrite problem_do_get by auto. now rewrite (In_dget prob n es ND Hin).
    + intros C. apply in_map_iff in C. destruct C as (m & Em & Hm). apply (HC m n); auto.
  - destruct (G n es _ Hin (D n Hn)) as (g & Hg & Lg & Ng). exists g. split; [exact Hg|]. split; [exact Lg|]. intros i Hi. rewrite Ng. cbn [Nat.leb andb Nat.add]. destruct (Nat.ltb_spec i (length X)); [|lia]. rewrite Nat.sub_0_r.
    eexists. split; [reflexivity|]. unfold matrix. split; [apply map_length|]. intros m Hm.
    rewrite (nth_indep (map _ es) [] ((fun e => map (fun j => estimate e (nth i X []) eps j) (seq 0 (length (nth i X [])))) (Const 0))) by (rewrite map_length; auto). rewrite (map_nth (fun e => map (fun j => estimate e (nth i X []) eps j) (seq 0 (length (nth i X []))))). split; [now rewrite map_length, seq_length|]. intros j Hj. now rewrite nth_map_seq0 by auto.
Qed.
(** a constrained problem asked for its objectives and their gradient only *)
Definition constrained : problem := [("F", [Add (Mul (Var 0) (Var 0)) (Exp (Var 1))]); ("G", [Sub (Var 0) (Const 1)])]%string.
Example C120_example : well_named constrained /\ gradient_do constrained (1 / 100000000) ["F"; "dF"]%string [[1; 2]] = None /\ gradient_do constrained (1 / 100000000) ["F"; "dF"; "dG"]%string [[1; 2]] <> None.
Proof.
  assert (W : well_named constrained).
  { split; [cbn; constructor; [cbn; intros [H|[]]; discriminate|constructor; [intros []|constructor]]|]. cbn. intros a b [<-|[<-|[]]] [<-|[<-|[]]]; discriminate. }
  split; [exact W|]. split; [reflexivity|]. apply C120_keys; [exact W|discriminate|]. cbn. intros n [<-|[<-|[]]]; cbn; auto.
Qed.
Example C120_smooth_example : smooth (Div (Sqrt (Exp (Var 0))) (Add (Const 1) (Mul (Var 1) (Var 1)))) [1; 2] /\ polynomial (Mul (Var 0) (Add (Var 0) (Var 1))) /\ degree (Mul (Var 0) (Add (Var 0) (Var 1))) 0 = 2%nat.
Proof. cbn [smooth ev nth polynomial degree]. repeat split; try (apply exp_pos); lra. Qed.
