(** * Model of /repo/pymoo/core/individual.py: constraint violation and its cache.
    Exact arithmetic (rationals) instead of binary64. *)
From Coq Require Import List QArith Bool Arith.
From Verif Require Import ListAux.
Import ListNotations.
Local Open Scope Q_scope.

Definition qpos (x : Q) : Q := if Qle_bool x 0 then 0 else x.                   (* np.maximum(0.0, x) *)
Definition qabs (x : Q) : Q := if Qle_bool 0 x then x else - x.                 (* np.abs *)
Definition qsum (l : list Q) : Q := fold_right Qplus 0 l.                       (* np.sum *)
Definition qmean (l : list Q) : Q := qsum l / inject_Z (Z.of_nat (length l)).   (* np.mean *)

(** one entry of the dictionaries cv_ieq / cv_eq of [default_config], individual.py:20-31; [pow] restricted to natural exponents *)
Record cv_config := { c_eps : Q; c_scale : option Q; c_pow : option nat; c_func : list Q -> Q }.

(** individual.py:600-633 [constr_to_cv]; the empty (or None) vector gives 0 *)
Definition constr_to_cv (c : list Q) (cfg : cv_config) : Q :=
  match c with
  | [] => 0
  | _ =>
      let c := map (fun x => qpos (x - c_eps cfg)) c in
      let c := match c_scale cfg with None => c | Some s => map (fun x => x / s) c end in
      let c := match c_pow cfg with None => c | Some p => map (fun x => Qpower x (Z.of_nat p)) c end in
      c_func cfg c
  end.

Record config := { k_cache : bool; k_cv_eps : Q; k_ieq : cv_config; k_eq : cv_config }.
(** individual.py:20-31 *)
Definition default_config : config :=
  {| k_cache := true; k_cv_eps := 0;
     k_ieq := {| c_eps := 0; c_scale := None; c_pow := None; c_func := qsum |};
     k_eq := {| c_eps := 1 # 10000; c_scale := None; c_pow := None; c_func := qsum |} |}.

(** individual.py:559-597 [calc_cv] for one individual (G, H vectors) *)
Definition calc_cv (G H : list Q) (cfg : config) : Q :=
  constr_to_cv G (k_ieq cfg) + constr_to_cv (map qabs H) (k_eq cfg).

(** core/population.py:180-191 [calc_cv] of a population *)
Definition calc_cv_pop (GH : list (list Q * list Q)) (cfg : config) : list Q := map (fun gh => calc_cv (fst gh) (snd gh) cfg) GH.

(** the part of an individual that takes part in the violation: [_G], [_H], [_CV] *)
Record cvobj := { g_ : list Q; h_ : list Q; cv_ : option Q }.
(** individual.py:96-136 [reset] *)
Definition cv_reset : cvobj := {| g_ := []; h_ := []; cv_ := None |}.
(** individual.py:228-242 property CV: value and new state *)
Definition cv_read (cfg : config) (o : cvobj) : Q * cvobj :=
  match k_cache cfg, cv_ o with
  | true, Some v => (v, o)
  | _, _ => let v := calc_cv (g_ o) (h_ o) cfg in (v, {| g_ := g_ o; h_ := h_ o; cv_ := Some v |})
  end.
(** individual.py:253-261 property FEAS (reads CV) *)
Definition feas_read (cfg : config) (o : cvobj) : bool * cvobj :=
  let '(v, o) := cv_read cfg o in (Qle_bool v (k_cv_eps cfg), o).

(** operations on an individual: setters (lines 190-226, 244-251, used by [set], evaluation and population setters), reads, reset *)
Inductive cvop := OSetG (G : list Q) | OSetH (H : list Q) | OSetCV (v : Q) | OReadCV | OReadFeas | OReset.
Definition cv_step (cfg : config) (o : cvobj) (op : cvop) : cvobj :=
  match op with
  | OSetG G => {| g_ := G; h_ := h_ o; cv_ := cv_ o |}
  | OSetH H => {| g_ := g_ o; h_ := H; cv_ := cv_ o |}
  | OSetCV v => {| g_ := g_ o; h_ := h_ o; cv_ := Some v |}
  | OReadCV => snd (cv_read cfg o)
  | OReadFeas => snd (feas_read cfg o)
  | OReset => cv_reset
  end.
Definition cv_run (cfg : config) (o : cvobj) (ops : list cvop) : cvobj := fold_left (cv_step cfg) ops o.
