(** * C115: the columns and texts *)
From Coq Require Import Ascii String List Arith Bool ZArith QArith Lia.
From Verif Require Import S_Display M_Display Thm_Display.
Import ListNotations.
Local Open Scope list_scope.

(** C115: which columns (name, width) the two outputs show; every name fits and none occurs twice *)
Theorem C115_columns : forall p,
  (forall c w, In (c, w) (base_columns ++ single_columns p) <->
     (c, w) = ("n_gen", 6)%nat \/ (c, w) = ("n_eval", 8)%nat \/ (p_constr p = true /\ (c = "cv_min" \/ c = "cv_avg") /\ w = 13%nat) \/ ((c = "f_avg" \/ c = "f_min") /\ w = 13%nat) \/ (p_has_pf p = true /\ (c, w) = ("f_gap", 13)%nat))%string /\
  (forall c w, In (c, w) (base_columns ++ multi_columns p) <->
     (c, w) = ("n_gen", 6)%nat \/ (c, w) = ("n_eval", 8)%nat \/ (c, w) = ("n_nds", 6)%nat \/ (p_constr p = true /\ (c = "cv_min" \/ c = "cv_avg") /\ w = 13%nat) \/
     (p_has_pf p = true /\ (c = "igd" \/ c = "gd" \/ (c = "hv" /\ p_n_obj p = 2%nat)) /\ w = 13%nat) \/ (p_has_pf p = false /\ (c = "eps" \/ c = "indicator") /\ w = 13%nat))%string /\
  Forall (fun cols => Forall (fun c => (String.length (fst c) <= snd c)%nat) cols /\ NoDup (map fst cols)) [base_columns ++ single_columns p; base_columns ++ multi_columns p].
Proof.
  intros [c f n]. unfold single_columns, multi_columns, cv_columns, base_columns. cbn [p_constr p_has_pf p_n_obj]. split; [|split].
  - intros c0 w. destruct c, f; cbn [app In]; intuition (try discriminate); subst; auto 20; try (match goal with H : (_, _) = (_, _) |- _ => injection H as <- <- end); auto 20.
  - intros c0 w. destruct (Nat.eqb_spec n 2); destruct c, f; cbn [app In]; intuition (try discriminate); subst; auto 20; try (match goal with H : (_, _) = (_, _) |- _ => injection H as <- <- end); auto 20; try congruence.
  - constructor; [|constructor; [|constructor]]; (split; [destruct c, f; try destruct (n =? 2)%nat; cbn; repeat (constructor; [cbn; lia|]); constructor|]);
    destruct c, f; try destruct (n =? 2)%nat; cbn [map fst app]; repeat (constructor; [cbn; intuition discriminate|]); constructor.
Qed.
(** C115: every text fills its width; with truncate=False nothing is cut off, and a number that fits is the same with and without it *)
Theorem C115_text : forall v w b t, format_text v w b = Some t ->
  (w <= List.length t)%nat /\ (b = true -> List.length t = w) /\
  (b = false -> exists k raw, t = repeat " "%char k ++ raw /\ (match v with VStr s => raw = s | VInt n => raw = str_int n | VNone => raw = ["-"%char] | _ => number_to_text v w = Some raw end) /\
    (k = 0%nat \/ List.length t = w) /\ (List.length raw <= w -> format_text v w true = Some t)%nat).
Proof.
  intros v w b t H. unfold format_text in *. set (raw := match v with VNone => _ | _ => _ end) in *. destruct raw as [r|] eqn:E; [|discriminate]. injection H as <-.
  assert (HL : forall u, List.length (rjust w u) = Nat.max w (List.length u)) by (intros u; unfold rjust; rewrite app_length, repeat_length; lia).
  rewrite HL. split; [lia|]. split.
  - intros ->. cbn [andb]. destruct (Nat.ltb_spec w (List.length r)) as [G|G]; [rewrite firstn_length; lia|lia].
  - intros ->. cbn [andb]. exists (w - List.length r)%nat, r. split; [reflexivity|]. split; [|split].
    + unfold raw in E. destruct v; cbn in E; try (injection E as <-; reflexivity); exact E.
    + lia.
    + intros G. replace (w <? List.length r)%nat with false by (symmetry; apply Nat.ltb_ge; lia). reflexivity.
Qed.
