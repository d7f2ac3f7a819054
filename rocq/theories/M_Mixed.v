(** * Model of mixed variables: /repo/pymoo/core/mixed.py (MixedVariableMating._do, MixedVariableSampling, MixedVariableDuplicateElimination), the sampling of
    /repo/pymoo/core/variable.py and the default operators (/repo/pymoo/operators/crossover/{sbx,ux}.py, mutation/{pm,bitflip,rm}.py, repair/rounding.py).
    X is a dictionary from names to values.  Numbers are rationals; the value which SBX and PM compute before it is set back to the bounds is arbitrary (its arithmetic: M_Bounds);
    random numbers are arguments.  None: an exception. *)
From Coq Require Import String List Arith Bool ZArith QArith DecimalString.
From Verif Require Import ListAux M_Params M_Bounds M_Cross.
Import ListNotations.
Local Open Scope nat_scope.

(** values of the options of a Choice, as Python values *)
Inductive pyv := PB (b : bool) | PI (z : Z) | PS (s : string) | PNone.
(** str(v), as numpy converts it *)
Definition py_str (v : pyv) : string :=
  match v with PB true => "True" | PB false => "False" | PI z => NilEmpty.string_of_int (Z.to_int z) | PS s => s | PNone => "None" end%string.
Definition is_str (v : pyv) : bool := match v with PS _ => true | _ => false end.
Definition is_int (v : pyv) : bool := match v with PI _ => true | _ => false end.
Definition is_none (v : pyv) : bool := match v with PNone => true | _ => false end.
(** an element of np.asarray(options): with None an object array; with a string all become strings; with an int all become ints *)
Definition asarray (options : list pyv) (v : pyv) : pyv :=
  if existsb is_none options then v
  else if existsb is_str options then PS (py_str v)
  else if existsb is_int options then match v with PB b => PI (Z.b2z b) | _ => v end else v.

(** core/variable.py: Real, Integer, Binary, Choice *)
Inductive mvar := MReal (lb ub : Q) | MInteger (lb ub : Z) | MBinary | MChoice (options : list pyv).
Inductive mval := VNum (q : Q) | VInt (z : Z) | VBool (b : bool) | VOpt (o : pyv).
Inductive vclass := KReal | KInteger | KBinary | KChoice.
Definition class_of (v : mvar) : vclass := match v with MReal _ _ => KReal | MInteger _ _ => KInteger | MBinary => KBinary | MChoice _ => KChoice end.
Definition vclass_eqb (a b : vclass) : bool := match a, b with KReal, KReal | KInteger, KInteger | KBinary, KBinary | KChoice, KChoice => true | _, _ => false end.
Definition vars := list (string * mvar).

(** ** mixed.py:68-87: the variables grouped by type; every Choice is a group of its own *)
Fixpoint add_group (c : vclass) (kv : string * mvar) (g : list (vclass * vars)) : list (vclass * vars) :=
  match g with [] => [(c, [kv])] | (c', l) :: g => if vclass_eqb c c' then (c', l ++ [kv]) :: g else (c', l) :: add_group c kv g end.
Definition vars_by_type (vs : vars) : list (vclass * vars) := fold_left (fun g kv => add_group (class_of (snd kv)) kv g) vs [].
Definition recomb (vs : vars) : list (vclass * vars) :=
  flat_map (fun cl => match fst cl with KChoice => map (fun kv => (KChoice, [kv])) (snd cl) | _ => [cl] end) (vars_by_type vs).

(** ** lines 89-134 *)
Notation dict := (list (string * mval)).
Fixpoint osequence {A} (l : list (option A)) : option (list A) :=
  match l with [] => Some [] | None :: _ => None | Some x :: l => option_map (cons x) (osequence l) end.
(** [parent.X[var] for var in list_of_vars] *)
Definition values_of (g : vars) (X : dict) : option (list mval) := osequence (map (fun kv => dget X (fst kv)) g).
(** off[k].X[name] = _off[k].X[i] *)
Fixpoint assign (g : vars) (row : list mval) (X : dict) : option dict :=
  match g, row with
  | [], _ => Some X
  | kv :: g, x :: row => assign g row (dset X (fst kv) x)
  | _, [] => None
  end.
Section Mating.
  (** the crossover and the mutation of a group: lists of rows of values *)
  Variable cross : vclass -> vars -> list (list (list mval)) -> list (list mval).
  Variable mut : vclass -> vars -> list (list mval) -> list (list mval).
  Definition group_step (parents : list (list dict)) (off : option (list dict)) (cg : vclass * vars) : option (list dict) :=
    match off, osequence (map (fun mating => osequence (map (values_of (snd cg)) mating)) parents) with
    | Some off, Some X =>
        let rows := mut (fst cg) (snd cg) (cross (fst cg) (snd cg) X) in
        osequence (map (fun k => match nth_error rows k with Some row => assign (snd cg) row (nth k off []) | None => None end) (seq 0 (length off)))
    | _, _ => None
    end.
  Definition mixed_mating (vs : vars) (parents : list (list dict)) (n_offsprings : nat) : option (list dict) :=
    fold_left (group_step parents) (recomb vs) (Some (repeat [] n_offsprings)).
End Mating.
(** number of matings: math.ceil(n_offsprings / 2), line 93 *)
Definition n_matings (n_offsprings : nat) : nat := (n_offsprings + 1) / 2.

(** ** the default operators.  Random: [crossed k]: crossover of mating k is executed; [mask k i]: UX takes the other parent's value; [y o k i]: what SBX computes for child o;
    [mutated k]; [z k i]: what PM computes; [flip k i]; [pick k i]: the position of the option drawn, or None *)
Record draws := { crossed : nat -> bool; mask : nat -> nat -> bool; y_ : nat -> nat -> nat -> Q; mutated : nat -> bool; z_ : nat -> nat -> Q; flip : nat -> nat -> bool; pick : nat -> nat -> option nat }.
Definition num (v : mval) : Q := match v with VNum q => q | VInt z => inject_Z z | _ => 0%Q end.
Definition bounded (v : mvar) (q : Q) : mval :=
  match v with MReal lb ub => VNum (M_Bounds.to_bounds q lb ub) | MInteger lb ub => VNum (M_Bounds.to_bounds q (inject_Z lb) (inject_Z ub)) | _ => VNum q end.
Definition dval : mval := VOpt PNone.
(** RoundingRepair, for integers only *)
Definition post (c : vclass) (row : list mval) : list mval := match c with KInteger => map (fun v => VInt (around (num v))) row | _ => row end.
Definition dvar : string * mvar := (""%string, MBinary).
Definition cross_child (r : draws) (c : vclass) (g : vars) (X : list (list (list mval))) (o k : nat) : list mval :=
  let p0 := nth 0 (nth k X []) [] in let p1 := nth 1 (nth k X []) [] in
  match c with
  | KBinary | KChoice => let '(c0, c1) := crossover_mask dval p0 p1 (map (mask r k) (seq 0 (length g))) in if o =? 0 then c0 else c1
  | _ => map (fun i => bounded (snd (nth i g dvar)) (y_ r o k i)) (seq 0 (length g))
  end.
(** the random numbers of a group: [rs g] *)
Definition cross_default (rs : vars -> draws) (c : vclass) (g : vars) (X : list (list (list mval))) : list (list mval) :=
  let r := rs g in
  map (post c) (crossover_do [] 2 2 X (map (crossed r) (seq 0 (length X))) (cross_child r c g X) (fun _ => []) (fun _ _ => [])).
Definition mut_entry (r : draws) (c : vclass) (kv : string * mvar) (k i : nat) (x : mval) : mval :=
  match c with
  | KBinary => if flip r k i then match x with VBool b => VBool (negb b) | _ => x end else x
  | KChoice => match pick r k i, snd kv with Some j, MChoice options => VOpt (asarray options (nth j options PNone)) | _, _ => x end
  | _ => bounded (snd kv) (z_ r k i)
  end.
Definition mut_default (rs : vars -> draws) (c : vclass) (g : vars) (rows : list (list mval)) : list (list mval) :=
  let r := rs g in
  map (fun k => let row := nth k rows [] in
    post c (if mutated r k then map (fun i => mut_entry r c (nth i g dvar) k i (nth i row dval)) (seq 0 (length row)) else row)) (seq 0 (length rows)).

(** ** mixed.py:137-147, variable.py [_sample]: sample k of variable i; [u]: uniform draws in [0,1), [j]: integer draws *)
Definition sample_var (v : mvar) (u : Q) (j : nat) : mval :=
  match v with
  | MReal lb ub => VNum (lb + u * (ub - lb))
  | MInteger lb _ => VInt (lb + Z.of_nat j)
  | MBinary => VBool (Qltb u (1 # 2))
  | MChoice options => VOpt (asarray options (nth j options PNone))
  end.
Definition mixed_sampling (vs : vars) (n : nat) (u : nat -> nat -> Q) (j : nat -> nat -> nat) : list dict :=
  map (fun k => map (fun i => (fst (nth i vs dvar), sample_var (snd (nth i vs dvar)) (u i k) (j i k))) (seq 0 (length vs))) (seq 0 n).

(** ** mixed.py:150-158 [is_equal]; [neq]: Python's != on values *)
Definition is_equal (neq : mval -> mval -> bool) (a b : dict) : bool :=
  forallb (fun kv => match dget b (fst kv) with None => false | Some w => negb (neq w (snd kv)) end) a.
