(** * C71 - C73: constraints as objective, as penalty, from bounds *)
From Coq Require Import String List Arith Bool ZArith QArith Lia Lqa.
From Verif Require Import ListAux M_Individual M_Params M_Evaluate M_Wrappers S_Wrappers P_Params P_Individual Thm_CV.
Import ListNotations.
Local Open Scope nat_scope.

Lemma inner_get inf p names xs n : dget (inner_do inf p names xs) n =
  match dget (w_set p xs) n with Some r => Some r | None => if existsb (String.eqb n) names then Some (repeat (repeat inf (w_size p n)) (length xs)) else None end.
Proof.
  unfold inner_do. generalize (w_set p xs). induction names as [|m names IH]; intros d; cbn [fold_left existsb].
  - now destruct (dget d n).
  - rewrite IH. destruct (String.eqb_spec n m) as [->|Hne]; cbn [orb].
    + destruct (dget d m) eqn:E; [now rewrite E|]. rewrite dget_dset, String.eqb_refl. reflexivity.
    + destruct (dget d m) eqn:E; [reflexivity|]. rewrite dget_dset. destruct (String.eqb_spec m n); [congruence|]. reflexivity.
Qed.
Lemma inner_rows inf p names xs n : w_ok p -> In n ["F"; "G"; "H"]%string -> available p names xs n ->
  exists rows, dget (inner_do inf p names xs) n = Some rows /\ length rows = length xs /\ Forall (fun r => length r = w_size p n) rows.
Proof.
  intros HW Hn HA. rewrite inner_get. destruct (HW xs) as (_ & HR). destruct (dget (w_set p xs) n) as [r|] eqn:E.
  - exists r. split; auto.
  - destruct HA as [HA|HA]; [|congruence]. assert (X : existsb (String.eqb n) names = true) by (apply existsb_exists; exists n; split; auto; apply String.eqb_refl). rewrite X.
    eexists. split; [reflexivity|]. split; [apply repeat_length|]. apply Forall_forall. intros r Hr. apply repeat_spec in Hr. subst. apply repeat_length.
Qed.
Lemma lift_get d n : dget (lift_dict d) n = option_map V2 (dget d n).
Proof. induction d as [|[k v] d IH]; cbn; auto. destruct (String.eqb k n); auto. Qed.
Lemma lift_keys d : map fst (lift_dict d) = map fst d.
Proof. unfold lift_dict. rewrite map_map. reflexivity. Qed.
Lemma ddel_spec {V} (d : list (string * V)) k : NoDup (map fst d) ->
  match ddel d k with None => dget d k = None | Some d' => NoDup (map fst d') /\ (forall n, dget d' n = if String.eqb k n then None else dget d n) /\ dget d k <> None end.
Proof.
  induction d as [|[k0 v0] d IH]; intros HN; cbn [ddel dget]; [reflexivity|]. cbn [map fst] in HN. inversion HN as [|? ? H1 H2]; subst. destruct (String.eqb_spec k0 k) as [->|Hne].
  - split; [auto|]. split; [|discriminate]. intros n. destruct (String.eqb_spec k n) as [->|]; [now apply dget_None_key|reflexivity].
  - specialize (IH H2). destruct (ddel d k) as [d'|]; cbn [option_map]; [|exact IH]. destruct IH as (N' & G' & Hk). split; [|split; [|exact Hk]].
    + cbn [map fst]. constructor; auto. intros C. apply H1. assert (Hg : dget d' k0 <> None) by (intros C'; apply dget_None_key in C'; contradiction).
      rewrite G' in Hg. destruct (String.eqb k k0); [congruence|]. destruct (in_dec String.string_dec k0 (map fst d)); auto. exfalso. apply Hg. now apply dget_None_key.
    + intros n. cbn [dget]. rewrite G'. destruct (String.eqb_spec k0 n) as [->|]; [|reflexivity]. destruct (String.eqb_spec k n); [congruence|reflexivity].
Qed.
Lemma inner_keys inf p names xs : NoDup (map fst (w_set p xs)) -> NoDup (map fst (inner_do inf p names xs)).
Proof.
  unfold inner_do. generalize (w_set p xs). induction names as [|m names IH]; intros d H; cbn [fold_left]; [exact H|]. apply IH. destruct (dget d m); auto. now apply dset_NoDup.
Qed.

(** what the two wrappers have in common: both delete G and H, which must be there *)
Section Common.
  Variables (inf : Q) (p : wprob) (names : list string) (xs : list (list Q)).
  Hypothesis HW : w_ok p.
  Hypothesis HN : NoDup (map fst (w_set p xs)).
  Let out := inner_do inf p names xs.
  Definition backup (F : list (list Q)) : dict :=
    let put k v d := match v with Some v => dset d k (V2 v) | None => d end in
    put "__H__"%string (dget out "H") (put "__G__"%string (dget out "G") (dset (lift_dict out) "__F__"%string (V2 F))).
  Lemma backup_nodup F : NoDup (map fst (backup F)).
  Proof.
    unfold backup. assert (A : NoDup (map fst (dset (lift_dict out) "__F__" (V2 F)))) by (apply dset_NoDup; rewrite lift_keys; now apply inner_keys).
    destruct (dget out "G"); destruct (dget out "H"); auto using dset_NoDup.
  Qed.
  Lemma backup_get F n : In n ["G"; "H"]%string -> dget (backup F) n = option_map V2 (dget out n).
  Proof.
    intros Hn. unfold backup. destruct (dget out "G") eqn:EG; destruct (dget out "H") eqn:EH; rewrite ?dget_dset, ?lift_get;
    destruct Hn as [<-|[<-|[]]]; cbn [String.eqb Ascii.eqb Bool.eqb]; rewrite ?dget_dset; cbn [String.eqb Ascii.eqb Bool.eqb]; rewrite ?lift_get, ?EG, ?EH; reflexivity.
  Qed.
  Lemma finish_spec F F' : (forall G H, dget out "G" = Some G -> dget out "H" = Some H -> exists d, match ddel (dset (backup F) "F" F') "G" with None => None | Some d => ddel d "H" end = Some d /\
      dget d "F" = Some F' /\ dget d "G" = None /\ dget d "H" = None /\ dget d "__F__" = Some (V2 F) /\ dget d "__G__" = Some (V2 G) /\ dget d "__H__" = Some (V2 H)) /\
    (dget out "G" = None \/ dget out "H" = None -> match ddel (dset (backup F) "F" F') "G" with None => None | Some d => ddel d "H" end = None).
  Proof.
    assert (ND : NoDup (map fst (dset (backup F) "F" F'))) by (apply dset_NoDup, backup_nodup).
    pose proof (ddel_spec (dset (backup F) "F" F') "G" ND) as D1. rewrite dget_dset in D1. cbn [String.eqb Ascii.eqb Bool.eqb] in D1. rewrite (backup_get F "G") in D1 by (now left).
    split.
    - intros G H EG EH. rewrite EG in D1. cbn [option_map] in D1. destruct (ddel (dset (backup F) "F" F') "G") as [d1|]; [|discriminate]. destruct D1 as (N1 & G1 & _).
      pose proof (ddel_spec d1 "H" N1) as D2. rewrite G1, dget_dset in D2. cbn [String.eqb Ascii.eqb Bool.eqb] in D2. rewrite (backup_get F "H") in D2 by (right; now left). rewrite EH in D2. cbn [option_map] in D2.
      destruct (ddel d1 "H") as [d2|]; [|discriminate]. destruct D2 as (_ & G2 & _). exists d2. split; [reflexivity|].
      rewrite !G2, !G1, !dget_dset. cbn [String.eqb Ascii.eqb Bool.eqb]. repeat split; auto.
      + unfold backup. rewrite EG, EH, !dget_dset. cbn [String.eqb Ascii.eqb Bool.eqb]. reflexivity.
      + unfold backup. rewrite EG, EH, !dget_dset. cbn [String.eqb Ascii.eqb Bool.eqb]. reflexivity.
      + unfold backup. rewrite EG, EH, !dget_dset. cbn [String.eqb Ascii.eqb Bool.eqb]. reflexivity.
    - intros [E|E].
      + rewrite E in D1. destruct (ddel (dset (backup F) "F" F') "G") as [d1|]; [destruct D1 as (_ & _ & C); now destruct C|reflexivity].
      + destruct (ddel (dset (backup F) "F" F') "G") as [d1|]; [|reflexivity]. destruct D1 as (N1 & G1 & _). pose proof (ddel_spec d1 "H" N1) as D2.
        rewrite G1, dget_dset in D2. cbn [String.eqb Ascii.eqb Bool.eqb] in D2. rewrite (backup_get F "H") in D2 by (right; now left). rewrite E in D2.
        destruct (ddel d1 "H"); [destruct D2 as (_ & _ & C); now destruct C|reflexivity].
  Qed.
End Common.

(** C71: the wrapped problem's objectives with the constraint violation in front; no constraints are left, the original values are stored.  Needed: both kinds of constraints are asked for
    (the evaluator of the algorithms asks for them) or set by the problem *)
Theorem C71_values inf cfg p names xs : w_ok p -> NoDup (map fst (w_set p xs)) -> available p names xs "G" -> available p names xs "H" ->
  exists F G H rows d, dget (inner_do inf p names xs) "F" = Some F /\ dget (inner_do inf p names xs) "G" = Some G /\ dget (inner_do inf p names xs) "H" = Some H /\
  as_obj_do inf true cfg p names xs = Some d /\ dget d "F" = Some (V2 rows) /\ dget d "G" = None /\ dget d "H" = None /\
  dget d "__F__" = Some (V2 F) /\ dget d "__G__" = Some (V2 G) /\ dget d "__H__" = Some (V2 H) /\
  length rows = length xs /\ forall i, i < length xs -> nth i rows [] = calc_cv (nth i G []) (nth i H []) cfg :: nth i F [] /\ length (nth i rows []) = as_obj_n_obj true p.
Proof.
  intros HW HN HG HH. assert (HF : available p names xs "F") by (right; destruct (HW xs) as ((F & E) & _); congruence).
  destruct (inner_rows inf p names xs "F" HW ltac:(cbn; auto) HF) as (F & EF & LF & SF). destruct (inner_rows inf p names xs "G" HW ltac:(cbn; auto) HG) as (G & EG & LG & _).
  destruct (inner_rows inf p names xs "H" HW ltac:(cbn; auto) HH) as (H & EH & LH & _).
  destruct (proj1 (finish_spec inf p names xs HN F (V2 (map2 (@app Q) (map (fun q => [q]) (map2 (fun g h => calc_cv g h cfg) G H)) F))) G H EG EH) as (d & Ed & D1 & D2 & D3 & D4 & D5 & D6).
  exists F, G, H, (map2 (@app Q) (map (fun q => [q]) (map2 (fun g h => calc_cv g h cfg) G H)) F), d. do 3 (split; [assumption|]). split.
  - unfold as_obj_do. unfold backup in Ed. rewrite EF. cbv zeta in Ed |- *. rewrite EG, EH in Ed |- *. cbn [cv_arr]. rewrite LG, LH, Nat.eqb_refl. unfold column_stack.
    rewrite map_length, length_map2, LG, LH, LF, Nat.min_id, Nat.eqb_refl. cbn [option_map]. exact Ed.
  - repeat (split; [assumption|]). split; [rewrite length_map2, map_length, length_map2; lia|]. intros i Hi.
    rewrite (nth_map2 _ _ _ i [] [] []) by (rewrite ?map_length, ?length_map2; lia).
    rewrite (nth_indep _ [] [0%Q]) by (rewrite map_length, length_map2; lia). rewrite (map_nth (fun q => [q])). rewrite (nth_map2 _ G H i 0%Q [] []) by lia. cbn [app]. split; [reflexivity|].
    cbn [length]. rewrite Forall_forall in SF. unfold as_obj_n_obj. change (w_size p "F") with (w_obj p) in SF. rewrite (SF (nth i F [])) by (apply nth_In; lia). lia.
Qed.
(** the new objective is never negative, and zero exactly for the feasible points *)
Theorem C71_feasible cfg G H : cfg_ok (k_ieq cfg) -> cfg_ok (k_eq cfg) -> let c := calc_cv G H cfg in
  (0 <= c)%Q /\ ((c == 0)%Q <-> Forall (fun g => g <= c_eps (k_ieq cfg))%Q G /\ Forall (fun h => - c_eps (k_eq cfg) <= h /\ h <= c_eps (k_eq cfg))%Q H).
Proof. intros H1 H2. destruct (C16_violation cfg G H H1 H2) as (A & B & _). split; auto. Qed.
(** a feasible point is dominated in the wrapped problem exactly if a feasible point dominates it in the original one: the Pareto front with constraints is the part of the new front
    with first objective zero *)
Theorem C71_front (S : list (Q * list Q)) cv f : Forall (fun s => 0 <= fst s)%Q S -> (cv == 0)%Q ->
  ((exists s, In s S /\ dominates (fst s :: snd s) (cv :: f)) <-> (exists s, In s S /\ (fst s == 0)%Q /\ dominates (snd s) f)).
Proof.
  intros HS H0. rewrite Forall_forall in HS. split; intros (s & Hs & D).
  - exists s. destruct D as (D1 & D2 & (j & Hj & D3)). pose proof (D2 0 ltac:(cbn; lia)) as C. cbn [nth] in C. specialize (HS s Hs). assert (E : (fst s == 0)%Q) by lra. split; [auto|]. split; [exact E|].
    split; [cbn in D1; lia|]. split; [intros k Hk; apply (D2 (Datatypes.S k)); cbn; lia|]. destruct j as [|j]; [cbn [nth] in D3; exfalso; lra|]. exists j. cbn in Hj. split; [lia|exact D3].
  - destruct D as (E & D1 & D2 & (j & Hj & D3)). exists s. split; [exact Hs|]. split; [cbn; lia|]. split.
    + intros [|k] Hk; cbn [nth]; [lra|]. apply D2. cbn in Hk. lia.
    + exists (Datatypes.S j). cbn [nth]. cbn. split; [lia|exact D3].
Qed.
(** "evaluate(X) works on the wrapped problem" is false: a problem with inequality constraints only, evaluated with the default arguments, ends with a KeyError; so does asking for G *)
Definition one_ieq : wprob := {| w_obj := 1; w_ieq := 1; w_eq := 0; w_xl := None; w_xu := None; w_set := fun xs => [("F"%string, map (fun x => [nth 0 x 0%Q]) xs); ("G"%string, map (fun x => [1 - nth 0 x 0]%Q) xs)] |}.
Lemma one_ieq_ok : w_ok one_ieq.
Proof.
  intros xs. split; [eexists; reflexivity|]. intros n rows Hn. cbn [one_ieq w_set dget]. destruct Hn as [<-|[<-|[<-|[]]]]; cbn [String.eqb Ascii.eqb Bool.eqb dget]; intros E; try discriminate; injection E as <-;
  (split; [apply map_length|]); apply Forall_forall; intros r Hr; apply in_map_iff in Hr; destruct Hr as (x & <- & _); reflexivity.
Qed.
Lemma as_obj_false inf cfg p names xs : w_ok p -> NoDup (map fst (w_set p xs)) -> available p names xs "G" -> available p names xs "H" ->
  exists d v, as_obj_do inf false cfg p names xs = Some d /\ dget d "F" = Some (V1 v) /\ dget d "G" = None.
Proof.
  intros HW HN HG HH. assert (HF : available p names xs "F") by (right; destruct (HW xs) as ((F & E) & _); congruence).
  destruct (inner_rows inf p names xs "F" HW ltac:(cbn; auto) HF) as (F & EF & LF & SF). destruct (inner_rows inf p names xs "G" HW ltac:(cbn; auto) HG) as (G & EG & LG & _).
  destruct (inner_rows inf p names xs "H" HW ltac:(cbn; auto) HH) as (H & EH & LH & _).
  destruct (proj1 (finish_spec inf p names xs HN F (V1 (map2 (fun g h => calc_cv g h cfg) G H))) G H EG EH) as (d & Ed & D1 & D2 & _).
  exists d. eexists. split; [|split; [exact D1|exact D2]]. unfold as_obj_do. unfold backup in Ed. rewrite EF. cbv zeta in Ed |- *. rewrite EG, EH in Ed |- *. cbn [cv_arr]. rewrite LG, LH, Nat.eqb_refl. exact Ed.
Qed.
Theorem C71_evaluate_refuted inf append cfg xs : w_ok one_ieq /\ result_of as_obj_names (as_obj_do inf append cfg one_ieq as_obj_names xs) = None /\
  result_of ["F"; "G"; "H"]%string (as_obj_do inf append cfg one_ieq ["F"; "G"; "H"]%string xs) = None.
Proof.
  split; [apply one_ieq_ok|]. assert (HN : NoDup (map fst (w_set one_ieq xs))) by (cbn; repeat constructor; cbn; intuition discriminate). split.
  - unfold as_obj_do. rewrite inner_get. cbn [one_ieq w_set dget String.eqb Ascii.eqb Bool.eqb]. destruct (cv_arr _ _ _) as [cv|]; [|reflexivity].
    match goal with |- context [match ?e with Some _ => _ | None => None end] => destruct e as [F'|]; [|reflexivity] end.
    match goal with |- result_of _ ?o = None => enough (X : o = None) by now rewrite X end.
    apply (proj2 (finish_spec inf one_ieq as_obj_names xs HN _ F')). right. rewrite inner_get. reflexivity.
  - unfold result_of. destruct append.
    + destruct (C71_values inf cfg one_ieq ["F"; "G"; "H"]%string xs one_ieq_ok HN) as (F & G & H & rows & d & _ & _ & _ & E & _ & D2 & _); [left; cbn; auto|left; cbn; auto|]. rewrite E. cbn [map all_some].
      destruct (dget d "F"); [|reflexivity]. rewrite D2. reflexivity.
    + destruct (as_obj_false inf cfg one_ieq ["F"; "G"; "H"]%string xs one_ieq_ok HN) as (d & v & E & _ & D2); [left; cbn; auto|left; cbn; auto|]. rewrite E. cbn [map all_some].
      destruct (dget d "F"); [|reflexivity]. rewrite D2. reflexivity.
Qed.
(** with append=False the objective has the wrong dimension: a vector instead of a matrix with one column; and the Pareto front has a column too many *)
Theorem C71_append_refuted inf cfg p names xs : w_ok p -> NoDup (map fst (w_set p xs)) -> available p names xs "G" -> available p names xs "H" ->
  (exists d v, as_obj_do inf false cfg p names xs = Some d /\ dget d "F" = Some (V1 v)) /\
  forall r pf, length r = w_obj p -> 1 <= w_obj p -> exists r' pf', as_obj_pareto_front (Some (r :: pf)) = Some (r' :: pf') /\ as_obj_n_obj false p < length r'.
Proof.
  intros HW HN HG HH. split.
  - destruct (as_obj_false inf cfg p names xs HW HN HG HH) as (d & v & E & D & _). eauto.
  - intros r pf Hr Ho. exists (0%Q :: r), (map (cons 0%Q) pf). split; [reflexivity|]. cbn [as_obj_n_obj length]. lia.
Qed.

(** ** C72: constraints as penalty *)
Theorem C72_values inf pen p names xs : w_ok p -> NoDup (map fst (w_set p xs)) -> w_obj p = 1 -> available p names xs "G" -> available p names xs "H" ->
  exists F G H rows d, dget (inner_do inf p names xs) "F" = Some F /\ dget (inner_do inf p names xs) "G" = Some G /\ dget (inner_do inf p names xs) "H" = Some H /\
  as_penalty_do inf pen p names xs = Some d /\ dget d "F" = Some (V2 rows) /\ dget d "G" = None /\ dget d "H" = None /\
  length rows = length xs /\ forall i, i < length xs -> length (nth i rows []) = 1 /\ (nth 0 (nth i rows []) 0 = nth 0 (nth i F []) 0 + pen * calc_cv (nth i G []) (nth i H []) default_config)%Q.
Proof.
  intros HW HN HO HG HH. assert (HF : available p names xs "F") by (right; destruct (HW xs) as ((F & E) & _); congruence).
  destruct (inner_rows inf p names xs "F" HW ltac:(cbn; auto) HF) as (F & EF & LF & SF). destruct (inner_rows inf p names xs "G" HW ltac:(cbn; auto) HG) as (G & EG & LG & _).
  destruct (inner_rows inf p names xs "H" HW ltac:(cbn; auto) HH) as (H & EH & LH & _). change (w_size p "F") with (w_obj p) in SF. rewrite HO in SF.
  assert (LC : length (concat F) = length F) by (clear -SF; induction SF as [|r F Hr HF IH]; cbn; auto; rewrite app_length, IH; lia).
  set (cvs := map2 (fun g h => calc_cv g h default_config) G H). assert (Lcv : length cvs = length xs) by (unfold cvs; rewrite length_map2; lia).
  set (rows := map2 (map2 (fun f c => f + pen * c)%Q) F (reshape (length F) 1 cvs)).
  destruct (proj1 (finish_spec inf p names xs HN F (V2 rows)) G H EG EH) as (d & Ed & D1 & D2 & D3 & _).
  exists F, G, H, rows, d. do 3 (split; [assumption|]). split.
  - unfold as_penalty_do. unfold backup in Ed. rewrite EF. cbv zeta in Ed |- *. rewrite EG, EH in Ed |- *. cbn [cv_arr]. rewrite LG, LH, Nat.eqb_refl. fold cvs. rewrite Lcv, LC, LF, Nat.eqb_refl.
    rewrite HO. rewrite <- LF. exact Ed.
  - do 3 (split; [assumption|]). assert (LR : length (reshape (length F) 1 cvs) = length F) by (apply length_reshape).
    split; [unfold rows; rewrite length_map2, LR; lia|]. intros i Hi. unfold rows. rewrite (nth_map2 _ F (reshape (length F) 1 cvs) i [] [] []) by lia.
    assert (E : nth i (reshape (length F) 1 cvs) [] = [nth i cvs 0%Q]).
    { clear -Lcv Hi LF. assert (H1 : i < length F) by lia. assert (H2 : i < length cvs) by lia. clear Lcv Hi LF. revert H1 H2. generalize (length F) as n. generalize cvs as l. induction i as [|i IH]; intros l n H1 H2; (destruct n as [|n]; [lia|]); (destruct l as [|c l]; [cbn in H2; lia|]); cbn [reshape nth firstn skipn]; [reflexivity|]. apply IH; cbn in H2; lia. }
    rewrite E. rewrite Forall_forall in SF. specialize (SF (nth i F []) ltac:(apply nth_In; lia)). destruct (nth i F []) as [|f [|? ?]] eqn:EFi; try discriminate. cbn [map2 length nth]. split; [reflexivity|].
    unfold cvs. rewrite (nth_map2 _ G H i 0%Q [] []) by lia. reflexivity.
Qed.
(** feasible points keep their objective, infeasible ones get a larger one; so if a best point of the penalised problem is feasible, it is a best feasible point of the original *)
Theorem C72_exact pen (S : list (Q * list Q * list Q)) s : (0 < pen)%Q -> let f s := fst (fst s) in let cv s := calc_cv (snd (fst s)) (snd s) default_config in let pf s := (f s + pen * cv s)%Q in
  let feas s := Forall (fun g => g <= 0)%Q (snd (fst s)) /\ Forall (fun h => - (1 # 10000) <= h /\ h <= 1 # 10000)%Q (snd s) in
  (feas s -> (pf s == f s)%Q) /\ (~ feas s -> (f s < pf s)%Q) /\
  (feas s -> (forall t, In t S -> (pf s <= pf t)%Q) -> forall t, In t S -> feas t -> (f s <= f t)%Q).
Proof.
  intros HP f cv pf feas. assert (A : forall t, (0 <= cv t)%Q /\ ((cv t == 0)%Q <-> feas t)).
  { intros t. destruct C16_default_config as (C1 & C2 & _). destruct (C71_feasible default_config (snd (fst t)) (snd t) C1 C2) as (H1 & H2). split; [exact H1|]. exact H2. }
  assert (B : forall t, feas t -> (pf t == f t)%Q) by (intros t Ht; unfold pf; rewrite (proj2 (proj2 (A t)) Ht); ring).
  split; [apply B|]. split.
  - intros Hn. destruct (A s) as (A1 & A2). assert (0 < cv s)%Q by (destruct (Qlt_le_dec 0 (cv s)); auto; exfalso; apply Hn, A2; lra). unfold pf. assert (0 < pen * cv s)%Q by (now apply Qmult_lt_0_compat). lra.
  - intros Hs Hm t Ht Hf. specialize (Hm t Ht). rewrite (B s Hs), (B t Hf) in Hm. exact Hm.
Qed.
(** with several objectives the penalty raises an exception for every non-empty set of points *)
Theorem C72_multi_refuted inf pen p names xs : w_ok p -> 2 <= w_obj p -> xs <> [] -> available p names xs "G" -> available p names xs "H" -> as_penalty_do inf pen p names xs = None.
Proof.
  intros HW HO Hx HG HH. assert (HF : available p names xs "F") by (right; destruct (HW xs) as ((F & E) & _); congruence).
  destruct (inner_rows inf p names xs "F" HW ltac:(cbn; auto) HF) as (F & EF & LF & SF). destruct (inner_rows inf p names xs "G" HW ltac:(cbn; auto) HG) as (G & EG & LG & _).
  destruct (inner_rows inf p names xs "H" HW ltac:(cbn; auto) HH) as (H & EH & LH & _). change (w_size p "F") with (w_obj p) in SF.
  assert (LC : length (concat F) = length F * w_obj p) by (clear -SF; induction SF as [|r F Hr HF IH]; cbn; auto; rewrite app_length, IH; lia).
  unfold as_penalty_do. rewrite EF. cbv zeta. rewrite EG, EH. cbn [cv_arr]. rewrite LG, LH, Nat.eqb_refl. rewrite length_map2, LG, LH, Nat.min_id, LC, LF.
  destruct (Nat.eqb_spec (length xs) (length xs * w_obj p)) as [E|]; [|reflexivity]. exfalso. destruct xs; [congruence|]. cbn [length] in E. nia.
Qed.

(** ** C73: constraints from bounds *)
Theorem C73_bounds inf p names xs xl xu n : w_ok p -> w_xl p = Some xl -> w_xu p = Some xu -> length xl = n -> length xu = n -> Forall (fun x => length x = n) xs -> available p names xs "G" ->
  exists G rows d, dget (inner_do inf p names xs) "G" = Some G /\ from_bounds_do inf false p names xs = Some d /\ dget d "G" = Some (V2 rows) /\
  (forall k, k <> "G"%string -> dget d k = option_map V2 (dget (inner_do inf p names xs) k)) /\ length rows = length xs /\
  forall i, i < length xs -> length (nth i rows []) = from_bounds_n_ieq n p /\
    (Forall (fun g => g <= 0)%Q (nth i rows []) <->
     Forall (fun g => g <= 0)%Q (nth i G []) /\ forall j, j < n -> (nth j xl 0 <= nth j (nth i xs []) 0)%Q /\ (nth j (nth i xs []) 0 <= nth j xu 0)%Q).
Proof.
  intros HW Hl Hu Ll Lu HX HG. destruct (inner_rows inf p names xs "G" HW ltac:(cbn; auto) HG) as (G & EG & LG & SG). change (w_size p "G") with (w_ieq p) in SG.
  set (B := map (fun x => map2 Qminus xl x ++ map2 Qminus x xu) xs). assert (LB : length B = length xs) by (unfold B; apply map_length).
  exists G, (map2 (@app Q) G B), (dset (lift_dict (inner_do inf p names xs)) "G" (V2 (map2 (@app Q) G B))). split; [exact EG|]. split.
  - unfold from_bounds_do. rewrite Hl, Hu, EG. fold B. rewrite LG, LB, Nat.eqb_refl. reflexivity.
  - split; [rewrite dget_dset; reflexivity|]. split; [intros k Hk; rewrite dget_dset, lift_get; destruct (String.eqb_spec "G" k); [congruence|reflexivity]|].
    split; [rewrite length_map2; lia|]. intros i Hi. rewrite (nth_map2 _ G B i [] [] []) by lia.
    assert (EB : nth i B [] = map2 Qminus xl (nth i xs []) ++ map2 Qminus (nth i xs []) xu).
    { unfold B. set (g := fun x => map2 Qminus xl x ++ map2 Qminus x xu). rewrite (nth_indep _ [] (g [])) by (rewrite map_length; lia). apply (map_nth g). }
    rewrite Forall_forall in HX, SG. pose proof (HX (nth i xs []) ltac:(apply nth_In; lia)) as Lx. pose proof (SG (nth i G []) ltac:(apply nth_In; lia)) as Lg.
    rewrite EB. split; [rewrite !app_length, !length_map2; unfold from_bounds_n_ieq; lia|].
    set (x := nth i xs []) in *. rewrite !Forall_app.
    assert (M : forall a b, length a = n -> length b = n -> (Forall (fun g => g <= 0)%Q (map2 Qminus a b) <-> forall j, j < n -> (nth j a 0 <= nth j b 0)%Q)).
    { intros a b La Lb. rewrite Forall_forall. split.
      - intros HA j Hj. specialize (HA (nth j (map2 Qminus a b) 0%Q) ltac:(apply nth_In; rewrite length_map2; lia)). rewrite (nth_map2 _ a b j 0%Q 0%Q 0%Q) in HA by lia. lra.
      - intros HA g Hg. destruct (In_nth _ _ 0%Q Hg) as (j & Hj & <-). rewrite length_map2 in Hj. rewrite (nth_map2 _ a b j 0%Q 0%Q 0%Q) by lia. specialize (HA j ltac:(lia)). lra. }
    rewrite (M xl x Ll Lx), (M x xu Lx Lu). split.
    + intros (A1 & A2 & A3). split; auto.
    + intros (A1 & A2). split; [auto|]. split; intros j Hj; apply A2; auto.
Qed.
(** with remove_bonds=True every evaluation raises an exception *)
Theorem C73_remove_refuted inf p names xs : from_bounds_do inf true p names xs = None.
Proof. reflexivity. Qed.
(** the default evaluation of the wrapper always asks for G *)
Theorem C73_default_names p xs n : w_ok p -> 1 <= n -> available p (from_bounds_names n p) xs "G".
Proof. intros _ Hn. left. unfold from_bounds_names, from_bounds_n_ieq. replace (0 <? w_ieq p + 2 * n) with true by (symmetry; apply Nat.ltb_lt; lia). cbn. auto. Qed.
(** and the constraint violation (default configuration) is the one of the original constraints plus the amounts by which the bounds are violated *)
Theorem C73_violation G H xl xu x : length xl = length x -> length xu = length x ->
  (calc_cv (G ++ map2 Qminus xl x ++ map2 Qminus x xu) H default_config == calc_cv G H default_config + qsum (map qpos (map2 Qminus xl x)) + qsum (map qpos (map2 Qminus x xu)))%Q.
Proof.
  intros Hl Hu. unfold calc_cv. cbn [default_config k_ieq k_eq].
  set (cfg := {| c_eps := 0; c_scale := None; c_pow := None; c_func := qsum |}).
  assert (A : forall l, (constr_to_cv l cfg == qsum (map qpos l))%Q).
  { intros l. destruct l as [|a l]; [reflexivity|]. unfold constr_to_cv, cfg. cbn [c_eps c_scale c_pow c_func]. generalize (a :: l). clear. induction l as [|a l IH]; [reflexivity|]. cbn [map qsum fold_right].
    fold (qsum (map (fun x => qpos (x - 0)) l)). fold (qsum (map qpos l)). rewrite IH. assert (E : (qpos (a - 0) == qpos a)%Q) by (apply Qle_antisym; apply qpos_mono; lra). rewrite E. reflexivity. }
  assert (B : forall l m, (qsum (l ++ m) == qsum l + qsum m)%Q).
  { intros l m. induction l as [|a l IH]; [change (qsum [] )%Q with 0%Q; cbn [app]; ring|]. change (a + qsum (l ++ m) == (a + qsum l) + qsum m)%Q. rewrite IH. ring. }
  rewrite !A, !map_app, !B. lra.
Qed.
Example C71_ex : exists d, as_obj_do 0 true default_config one_ieq ["F"; "G"; "H"]%string [[0]; [2]]%Q = Some d /\ dget d "F" = Some (V2 [[1; 0]; [0; 2]])%Q.
Proof. eexists. split; vm_compute; reflexivity. Qed.
Example C72_ex : exists d, as_penalty_do 0 10 one_ieq ["F"; "G"; "H"]%string [[0]; [2]]%Q = Some d /\ dget d "F" = Some (V2 [[10]; [2]])%Q.
Proof. eexists. split; vm_compute; reflexivity. Qed.
Print Assumptions C71_values. Print Assumptions C71_evaluate_refuted. Print Assumptions C72_values. Print Assumptions C73_bounds. Print Assumptions C73_violation.
