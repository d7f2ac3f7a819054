(** * Model of /repo/pymoo/indicators/rmetric.py (R-IGD and R-HV) and spacing.py.
    R-metric: exact rationals; euclidean distances are only compared, so their squares are used.  The indicators of the two final sets,
    [igd reference points] (indicators/igd.py, see M_Indicator) and [hv ref_point points] (external, [None] = it raised), are arguments.
    [w] is a number: a sequence would be doubled by [2 * w_] (rmetric.py:26-27); 0 counts as not given. *)
From Coq Require Import List Arith Bool ZArith QArith Qabs.
From Verif Require Import ListAux M_Termination M_Norm M_RefDirs2.
Import ListNotations.
Local Open Scope nat_scope.

(** rmetric.py:37-50 [check_dominance]: the two flags, then 1, -1 or 0 *)
Definition check_dominance (a b : list Q) (n_obj : nat) : Z :=
  let '(f1, f2) := fold_left (fun '(f1, f2) i => if negb (Qle_bool (nth i b 0%Q) (nth i a 0%Q)) then (true, f2)
                                                  else if negb (Qle_bool (nth i a 0%Q) (nth i b 0%Q)) then (f1, true) else (f1, f2)) (seq 0 n_obj) (false, false) in
  if f1 && negb f2 then 1%Z else if negb f1 && f2 then (-1)%Z else 0%Z.
(** rmetric.py:52-67 [_filter] *)
Definition rm_filter (n_obj : nat) (F : list (list Q)) (others : option (list (list Q))) : list (list Q) :=
  match others with
  | None => F
  | Some others => filter (fun f => negb (existsb (fun o => (check_dominance f o n_obj =? -1)%Z) others)) F
  end.
(** rmetric.py:70-83 [_preprocess]: the row with the least largest ratio *)
Definition ratios (x ref w : list Q) : list Q := map2 Qdiv (map2 Qminus x ref) (map2 Qminus w ref).
Definition amax (l : list Q) : Q := match l with [] => 0%Q | x :: l => py_max x l end.
Definition preprocess (data : list (list Q)) (ref w : list Q) : list Q :=
  nth (argminQ (map (fun x => amax (ratios x ref w)) data)) data [].
(** rmetric.py:85-98 [_translate] *)
Definition shift_of (zp ref w : list Q) : list Q :=
  let t := ratios zp ref w in
  let k := match argmaxQ t with Some k => k | None => 0 end in
  let s := nth k t 0%Q in
  map2 Qminus (map2 (fun r d => (r + s * d)%Q) ref (map2 Qminus w ref)) zp.
Definition translate (zp : list Q) (data : list (list Q)) (ref w : list Q) : list (list Q) := map (fun x => map2 Qplus x (shift_of zp ref w)) data.
(** rmetric.py:100-105 [_trim] *)
Definition trim (pop : list (list Q)) (c : list Q) (range : Q) : list (list Q) :=
  filter (fun x => forallb (fun d => negb (Qle_bool (range / 2) (Qabs d))) (map2 Qminus x c)) pop.
(** squared euclidean distance *)
Definition dist2 (a b : list Q) : Q := fold_right Qplus 0%Q (map2 (fun x y => ((x - y) * (x - y))%Q) a b).
(** rmetric.py:24-27: the points [w] beyond the reference points *)
Definition w_of (w : option Q) : Q := match w with None => 1%Q | Some w => if Qeq_bool w 0 then 1%Q else w end.
Definition w_point (w : option Q) (ref : list Q) : list Q := map (fun r => (r + 2 * w_of w)%Q) ref.
Section RMetric.
  Variables (n_obj : nat) (refs : list (list Q)) (w : option Q) (delta : Q) (pf : list (list Q)).
  Definition ref_at (i : nat) := nth i refs [].
  (** rmetric.py:140 labels, 143: the cluster of a reference point *)
  Definition label (x : list Q) : nat := argminQ (map (dist2 x) refs).
  Definition cluster (F : list (list Q)) (others : option (list (list Q))) (i : nat) : list (list Q) := filter (fun x => label x =? i) (rm_filter n_obj F others).
  (** rmetric.py:142-156 *)
  Definition translated_of (F : list (list Q)) (others : option (list (list Q))) (i : nat) : list (list Q) :=
    match cluster F others i with
    | [] => []
    | c => let zp := preprocess c (ref_at i) (w_point w (ref_at i)) in translate zp (trim c zp delta) (ref_at i) (w_point w (ref_at i))
    end.
  Definition translated (F : list (list Q)) (others : option (list (list Q))) : list (list Q) := concat (map (translated_of F others) (seq 0 (length refs))).
  (** rmetric.py:154-156: the target points of the front are trimmed with the default range, not with [delta] *)
  Definition target_of (i : nat) : list (list Q) := trim pf (preprocess pf (ref_at i) (w_point w (ref_at i))) (1 # 5).
  Definition final_pf : list (list Q) := concat (map target_of (seq 0 (length refs))).
  (** rmetric.py:164-179: R-IGD and R-HV *)
  Definition nadir_w : list Q := match map (w_point w) refs with [] => [] | r :: rs => fold_left (map2 (fun a b => py_max a [b])) rs r end.
  Definition rmetric (igd : list (list Q) -> list (list Q) -> Q) (hv : list Q -> list (list Q) -> option Q)
    (F : list (list Q)) (others : option (list (list Q))) (calc_hv : bool) : option Q * option Q :=
    match translated F others with
    | [] => (None, None)
    | t => (Some (igd final_pf t), if calc_hv && (n_obj <=? 3) then hv nadir_w t else None)
    end.
End RMetric.
