(** * C114: MIGD *)
From Coq Require Import List Arith Bool QArith ZArith Lia Reals.
From Verif Require Import M_Indicator M_Dyn Thm_Dyn M_Running.
Import ListNotations.

(** ** specification: the calls of the callback with the generations elapsed before each *)
Fixpoint calls_of {X} (c : Z) (os : list (@migd_op X)) : list (Z * (list X * list (list R))) :=
  match os with [] => [] | Move e :: os => calls_of (c + e)%Z os | Call pop :: os => (c, pop) :: calls_of c os end.
(** the time after [c] generations *)
Definition time_at (nt taut : Z) (t0 : option Q) (c : Z) : Q := match t0 with Some v => v | None => (1 / inject_Z nt * inject_Z (c / taut))%Q end.

(** C114: on an unconstrained dynamic problem MIGD records at every call the current time and the IGD of the front of that time to the population, re-evaluated at
    that time (or as stored), and its value is the mean of those; it is NaN before the first call, and on a constrained problem the first call raises *)
Theorem C114_migd : forall V X calc evalf (igdf : V -> list (list R) -> R) reevaluate nt taut tau t0 (os : list (@migd_op X)), (nt <> 0)%Z -> (taut <> 0)%Z ->
  let score := fun cp : Z * (list X * list (list R)) => let t := time_at nt taut t0 (fst cp) in
               igdf (calc 100%nat t) (if reevaluate : bool then evalf t (fst (snd cp)) else snd (snd cp)) in
  (exists p, migd_run calc evalf igdf reevaluate 0 (dyn_new nt taut tau t0, []) os =
             Some (p, map (fun cp => (time_at nt taut t0 (fst cp), score cp)) (calls_of tau os))) /\
  migd_value (map (fun cp => (time_at nt taut t0 (fst cp), score cp)) (calls_of tau os)) =
    (match calls_of tau os with [] => None | _ => Some (fold_right Rplus 0%R (map score (calls_of tau os)) / INR (length (calls_of tau os)))%R end) /\
  forall n_constr, n_constr <> 0%nat -> calls_of tau os <> [] -> migd_run calc evalf igdf reevaluate n_constr (dyn_new nt taut tau t0, []) os = None.
Proof.
  intros V X calc evalf igdf reevaluate nt taut tau t0 os Hnt Htaut score. split; [|split].
  - set (good := fun (p : dyn V) c => d_nt p = nt /\ d_taut p = taut /\ d_tau p = c /\ d_set p = t0 /\ (d_cache p = None \/ d_cache p = Some (calc 100%nat (time_at nt taut t0 c)))).
    assert (HT : forall p c, good p c -> dyn_time p = Some (time_at nt taut t0 c)).
    { intros p c (G1 & G2 & G3 & G4 & _). unfold dyn_time, time_at. rewrite G1, G2, G3, G4. destruct t0; auto.
      destruct (Z.eqb_spec nt 0); [tauto|]. destruct (Z.eqb_spec taut 0); [tauto|]. reflexivity. }
    assert (G : forall os p c records, good p c -> exists p', migd_run calc evalf igdf reevaluate 0 (p, records) os =
               Some (p', records ++ map (fun cp => (time_at nt taut t0 (fst cp), score cp)) (calls_of c os))).
    { clear os. induction os as [|[e|pop] os IH]; intros p c records HG; cbn [migd_run calls_of].
      - exists p. cbn. now rewrite app_nil_r.
      - cbn [fst snd dyn_do]. apply IH. destruct HG as (G1 & G2 & G3 & G4 & _). repeat split; cbn; auto. now rewrite G3.
      - pose proof (HT p c HG) as ET. unfold migd_update. cbn [Nat.eqb]. rewrite ET. cbn [dyn_do]. rewrite ET.
        assert (HC := HG). destruct HC as (G1 & G2 & G3 & G4 & [G5|G5]); rewrite G5; cbv zeta.
        + edestruct IH as [p' E]; [|exists p'; rewrite E]; [|cbn [map]; rewrite <- app_assoc; reflexivity]. repeat split; cbn; auto.
        + edestruct IH as [p' E]; [|exists p'; rewrite E]; [exact HG|]. cbn [map]. rewrite <- app_assoc. reflexivity. }
    destruct (G os (dyn_new nt taut tau t0) tau []) as [p E]; [repeat split; cbn; auto|]. exists p. exact E.
  - unfold migd_value. destruct (calls_of tau os) as [|c l]; [reflexivity|]. set (L := c :: l). change (match map (fun cp => (time_at nt taut t0 (fst cp), score cp)) L with [] => None | _ => Some (mean (map snd (map (fun cp => (time_at nt taut t0 (fst cp), score cp)) L))) end) with (Some (mean (map snd (map (fun cp => (time_at nt taut t0 (fst cp), score cp)) L)))).
    rewrite map_map. cbn [snd]. unfold mean, M_NSGA3R.rsum. rewrite map_length. reflexivity.
  - intros n_constr Hn HC. assert (G : forall os c st, calls_of c os <> [] -> migd_run calc evalf igdf reevaluate n_constr st os = None).
    { clear os HC. induction os as [|[e|pop] os IH]; intros c st H; cbn [calls_of] in *; [congruence| |].
      - cbn [migd_run]. apply (IH (c + e)%Z); auto.
      - cbn [migd_run]. unfold migd_update. destruct st as [p records]. destruct (Nat.eqb_spec n_constr 0); [tauto|]. reflexivity. }
    apply (G os tau); auto.
Qed.
(** two calls in different periods *)
Example C114_migd_ex : calls_of (X := nat) 1 [Call ([1%nat], []); Move 20; Call ([2%nat], [])] = [(1, ([1%nat], [])); (21, ([2%nat], []))]%Z /\
  time_at 10 20 None 1 == 0 /\ time_at 10 20 None 21 == 1 # 10.
Proof. split; [reflexivity|]. split; vm_compute; reflexivity. Qed.
