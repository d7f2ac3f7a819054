(** * C119: which values EvolutionaryParameterControl replaces, without the model's own test *)
From Coq Require Import String List Arith Bool ZArith QArith Lia Lqa Permutation.
From Verif Require Import ListAux P_Perm P_Cross M_Params P_Params M_Mixed S_Mixed Thm_Mixed Thm_Mixed2 Thm_Mixed3 M_Selection S_Selection P_Selection Thm_Selection M_Control Thm_Control Thm_Control2.
Import ListNotations.
Local Open Scope nat_scope.
(** C119: a value which is there and is not None stays, a parameter without a value (or with the value None) gets one of its domain *)
Theorem C119_kept : forall ps r pop p kv, vars_ok ps -> pdraws_ok ps r -> p < length pop -> In kv ps ->
  let x := nth p pop [] in let x' := nth p (fill_missing ps r pop) [] in
  (forall v, dget x (fst kv) = Some v -> v <> VOpt PNone -> dget x' (fst kv) = Some v) /\
  (dget x (fst kv) = None \/ dget x (fst kv) = Some (VOpt PNone) -> exists v, dget x' (fst kv) = Some v /\ in_dom (snd kv) v).
Proof.
  intros ps r pop p kv HV Hr Hp Hk x x'. destruct (C119_filled ps r pop HV Hr) as [_ H]. destruct (H p Hp) as [_ H']. specialize (H' kv Hk). fold x x' in H'. split.
  - intros v Hv Hn. assert (E : is_missing (data_get x (fst kv)) = false).
    { unfold data_get. rewrite Hv. destruct v as [| | |[]]; try reflexivity. exfalso. apply Hn. reflexivity. }
    rewrite E in H'. congruence.
  - intros Hv. assert (E : is_missing (data_get x (fst kv)) = true) by (unfold data_get; destruct Hv as [-> | ->]; reflexivity). rewrite E in H'. exact H'.
Qed.
