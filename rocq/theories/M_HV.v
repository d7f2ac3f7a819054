(** * Model of /repo/pymoo/indicators/hv/__init__.py (Hypervolume), hv/approximate.py (ApproximateHypervolume) and epsilon.py, with core/indicator.py.
    Exact rational arithmetic.  The library moocore is external: [moo_hypervolume] and the epsilon functions stand for what it documents. *)
From Coq Require Import List Arith Bool ZArith QArith.
From Verif Require Import ListAux M_Survival M_RefDirs2 M_Norm S_HV M_SMS.
Import ListNotations.
Local Open Scope Q_scope.

(** moocore.hypervolume(F, ref=ref) *)
Definition moo_hypervolume (F : list (list Q)) (ref : list Q) : Q := hypervolume ref F.

(** normalization.py:201-220 [PreNormalization.__init__]: outer None the assertion, inner None NoNormalization *)
Definition pre_norm (zero_to_one : bool) (ideal nadir : option (list Q)) : option (option (list bnd)) :=
  if zero_to_one then
    match ideal, nadir with
    | Some i, Some n => match zto_init (map Some i) (map Some n) with Some bs => Some (Some bs) | None => None end
    | _, _ => None
    end
  else Some None.
(** [self.normalization.forward(F)]; [is_int]: F has an integer type *)
Definition norm_forward (is_int : bool) (norm : option (list bnd)) (F : list (list Q)) : list (list Q) :=
  match norm with None => F | Some bs => zto_forward is_int bs F end.
(** distance_indicator.py:25-38 [derive_ideal_and_nadir_from_pf] *)
Definition derive (m : nat) (pf : option (list (list Q))) (ideal nadir : option (list Q)) : option (list Q) * option (list Q) :=
  match pf with
  | Some pf => (Some (match ideal with Some i => i | None => col_min m pf end), Some (match nadir with Some n => n | None => col_max m pf end))
  | None => (ideal, nadir)
  end.
(** indicator.py:19-32 [do] *)
Definition ind_do (is_int : bool) (norm : option (list bnd)) (inner : list (list Q) -> option Q) (F : list (list Q)) : option Q :=
  match F with [] => Some 0 | _ => inner (norm_forward is_int norm F) end.

(** ** hv/__init__.py:14-55 [Hypervolume.__init__], [m] objectives: the normalisation and the reference point; None an assertion *)
Definition hv_init (m : nat) (ref_point : option (list Q)) (pf : option (list (list Q))) (norm_ref_point zero_to_one : bool) (ideal nadir : option (list Q))
  : option (option (list bnd) * list Q) :=
  let '(ideal, nadir) := derive m pf ideal nadir in
  match pre_norm zero_to_one ideal nadir with
  | None => None
  | Some norm =>
      let ref := match ref_point with Some r => Some r | None => match pf with Some pf => Some (col_max m pf) | None => None end end in
      match ref with
      | None => None
      | Some r => Some (norm, if norm_ref_point then hd [] (norm_forward false norm [r]) else r)
      end
  end.
(** lines 59-62 [_do] within [Indicator.do] *)
Definition hv_do (is_int : bool) (st : option (list bnd) * list Q) (F : list (list Q)) : option Q :=
  ind_do is_int (fst st) (fun N => Some (moo_hypervolume N (snd st))) F.

(** ** epsilon.py.  moocore.epsilon_additive(F, ref=pf): the greatest over the reference points of the least over the points of the greatest
    difference; epsilon_mult: ratios, and an error (None) unless all the values are positive *)
Definition eps_of (diff : Q -> Q -> Q) (F pf : list (list Q)) : Q :=
  q_max_list (map (fun z => qmin_list (map (fun p => q_max_list (map2 diff p z)) F)) pf).
Definition epsilon_additive (F pf : list (list Q)) : option Q := Some (eps_of Qminus F pf).
Definition positive (F : list (list Q)) : bool := forallb (forallb (fun x => negb (Qle_bool x 0))) F.
Definition epsilon_mult (F pf : list (list Q)) : option Q := if positive F && positive pf then Some (eps_of Qdiv F pf) else None.
(** epsilon.py:16-26: the normalisation and the normalised front; None the assertion *)
Definition eps_init (m : nat) (zero_to_one : bool) (pf : list (list Q)) : option (option (list bnd) * list (list Q)) :=
  let '(ideal, nadir) := derive m (Some pf) None None in
  match pre_norm zero_to_one ideal nadir with None => None | Some norm => Some (norm, norm_forward false norm pf) end.
Definition eps_do (calc : list (list Q) -> list (list Q) -> option Q) (st : option (list bnd) * list (list Q)) (F : list (list Q)) : option Q :=
  ind_do false (fst st) (fun N => calc N (snd st)) F.

(** ** hv/approximate.py.  [approx], [contrib]: moocore.hv_approx and hv_contributions with the reference point and the options of the object; with
    [seed=None] hv_approx is not a function, and the statements about [a_hv] do not apply *)
Section Approximate.
  Variables (approx : list (list Q) -> Q) (contrib : list (list Q) -> list Q).
  Record ahv := { a_F : list (list Q); a_hv : Q; a_hvc : list Q }.
  (** lines 16-41 *)
  Definition ahv_new : ahv := {| a_F := []; a_hv := 0; a_hvc := [] |}.
  (** lines 65-78 [_update] *)
  Definition ahv_update (F : list (list Q)) : ahv :=
    match F with [] => {| a_F := F; a_hv := 0; a_hvc := [] |} | _ => {| a_F := F; a_hv := approx F; a_hvc := contrib F |} end.
  (** lines 43-54 [add]; lines 56-67 [delete]: numpy's index rules, None an IndexError *)
  Inductive aop := Add (F : list (list Q)) | Delete (k : Z).
  Definition np_index (n : nat) (k : Z) : option nat :=
    if (0 <=? k)%Z && (k <? Z.of_nat n)%Z then Some (Z.to_nat k)
    else if (- Z.of_nat n <=? k)%Z && (k <? 0)%Z then Some (Z.to_nat (Z.of_nat n + k)) else None.
  Definition ahv_step (s : ahv) (o : aop) : option ahv :=
    match o with
    | Add F => Some (ahv_update (a_F s ++ F))
    | Delete k => match np_index (length (a_F s)) k with Some k => Some (ahv_update (delete_at (a_F s) k)) | None => None end
    end.
  Fixpoint ahv_run (s : ahv) (os : list aop) : option ahv :=
    match os with [] => Some s | o :: os => match ahv_step s o with Some s => ahv_run s os | None => None end end.
End Approximate.
