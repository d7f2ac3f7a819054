(** * Model of /repo/pymoo/optimize.py (minimize), of what Algorithm.setup, _post_advance (save_history) of
      /repo/pymoo/core/algorithm.py and Meta of /repo/pymoo/core/meta.py do to the objects involved. *)
From Coq Require Import String List Arith Bool.
From Verif Require Import ListAux M_Heap.
Import ListNotations.
Local Open Scope nat_scope.
Local Open Scope string_scope.

(** core/algorithm.py:110-139 [setup] up to the call of [_setup]; [kwargs] are the options other than verbose and progress, which are
    named parameters.  [VPrim 0] as a verbose/progress flag is False. *)
Definition is_none (v : value) : bool := match v with VNone => true | _ => false end.
(** core/algorithm.py:124: np.random.default_rng(self.seed) *)
Definition rng_obj (seed : value) : obj := plain [("seed", seed)].
(** core/algorithm.py:398-404 [default_termination]: a new object; its contents do not matter here *)
Definition default_term_obj : obj := plain [("default", VPrim 1)].
(** util/misc.py:711-732 [termination_from_tuple]: a Termination object is kept, anything else (a string or a tuple) makes a new one *)
Definition termination_from_tuple (h : heap) (t : value) : heap * value :=
  match t with
  | VNone => (h, VNone)
  | VPrim z => alloc h (plain [("spec", VPrim z)])
  | VRef a => match nth_error h a with
              | Some o => match o_kind o with Tuple => alloc h (plain (o_fields o)) | _ => (h, t) end
              | None => (h, t)
              end
  end.
(** util/display/display.py:12-16 *)
Definition display_obj (output verbose progress : value) : obj :=
  plain [("output", output); ("verbose", verbose); ("progress", progress)].

Definition set_all (h : heap) (self : value) (kwargs : list (string * value)) : heap :=
  fold_left (fun h kv => setattr h self (fst kv) (snd kv)) kwargs h.

Definition setup (h : heap) (self problem verbose progress : value) (kwargs : list (string * value)) : option heap :=
  (* line 113 *)
  let h := setattr h self "problem" problem in
  (* lines 116-117 *)
  let out := getattr h self "output" in
  match (if is_none out then Some (h, out) else deepcopy h out) with
  | None => None
  | Some (h, out) =>
      let h := setattr h self "output" out in
      (* lines 120-121 *)
      let h := set_all h self kwargs in
      (* line 124 *)
      let '(h, r) := alloc h (rng_obj (getattr h self "seed")) in
      let h := setattr h self "random_state" r in
      (* lines 127-130 *)
      let t := getattr h self "termination" in
      let '(h, t) := if is_none t then alloc h default_term_obj else termination_from_tuple h t in
      let h := setattr h self "termination" t in
      (* lines 133-134 *)
      if is_none (getattr h self "display") then
        let '(h, d) := alloc h (display_obj (getattr h self "output") verbose progress) in
        Some (setattr h self "display" d)
      else Some h
  end.

(** optimize.py:6-53 [minimize].  [_setup] of the concrete algorithm and the run are arbitrary code that starts from the algorithm, the
    problem and the options. *)
Definition everything (k : string) : bool := true.
Definition copy_if (c : bool) (h : heap) (v : value) : option (heap * value) := if c then deepcopy h v else Some (h, v).
Inductive minimize (copy_algorithm copy_termination : bool) (h : heap) (problem algorithm termination verbose progress : value)
    (kwargs : list (string * value)) : heap -> value -> Prop :=
  (* lines 34-45, 48-53: the algorithm has no problem yet *)
  | minimize_setup : forall h1 self h2 t h3 h4 L,
      copy_if copy_algorithm h algorithm = Some (h1, self) ->
      getattr h1 self "problem" = VNone ->
      (if is_none termination then Some (h1, VNone) else copy_if copy_termination h1 termination) = Some (h2, t) ->
      let kwargs' := (if is_none termination then kwargs else kwargs ++ [("termination", t)])%list in
      setup h2 self problem verbose progress kwargs' = Some h3 ->
      steps everything (h3, self :: problem :: map snd kwargs') (h4, L) ->
      minimize copy_algorithm copy_termination h problem algorithm termination verbose progress kwargs h4 self
  (* lines 34-35, 48-53: it has one: setup is skipped *)
  | minimize_run : forall h1 self h4 L,
      copy_if copy_algorithm h algorithm = Some (h1, self) ->
      getattr h1 self "problem" <> VNone ->
      steps everything (h1, [self]) (h4, L) ->
      minimize copy_algorithm copy_termination h problem algorithm termination verbose progress kwargs h4 self.

(** core/algorithm.py:322-329: the history entry of an iteration.  [true]: the entry was appended; [false]: deepcopy raised, which leaves
    the three attributes at None.  [append]: the list object gets one more element, under a name for its position (position n is written in unary). *)
Fixpoint name_of (n : nat) : string := match n with O => "" | S n => append "i" (name_of n) end.
Definition list_append (h : heap) (l v : value) : heap :=
  match l with
  | VRef a => match nth_error h a with
              | Some o => upd h a (with_fields o (o_fields o ++ [(name_of (length (o_fields o)), v)])%list)
              | None => h
              end
  | _ => h
  end.
Definition blank3 (h : heap) (self : value) : heap :=
  setattr (setattr (setattr h self "history" VNone) self "callback" VNone) self "display" VNone.
Definition save_history (h : heap) (self : value) : heap * bool :=
  let hist := getattr h self "history" in
  let cb := getattr h self "callback" in
  let di := getattr h self "display" in
  let h := blank3 h self in
  match deepcopy h self with
  | None => (h, false)
  | Some (h, o) =>
      let h := setattr (setattr (setattr h self "history" hist) self "callback" cb) self "display" di in
      (list_append h (getattr h self "history") o, true)
  end.

(** a run with save_history: arbitrary code that leaves the attribute history alone, interrupted by the snapshots; the record of the
    run: for every snapshot the heap right after it and the entry made *)
Definition not_history (k : string) : bool := negb (String.eqb k "history").
Inductive hist_run (self : value) : heap * list value -> list (heap * heap) -> heap * list value -> Prop :=
  | hr_none : forall s, hist_run self s [] s
  | hr_code : forall s1 s2 tr s3, step not_history s1 s2 -> hist_run self s2 tr s3 -> hist_run self s1 tr s3
  | hr_snap : forall h L h' tr s3, save_history h self = (h', true) -> hist_run self (h', L) tr s3 ->
      hist_run self (h, L) ((h, h') :: tr) s3.

(** core/meta.py:9-25 [Meta.__init__]: the wrapper shares its __dict__ with the (copied) wrapped object, so here they are one object;
    core/algorithm.py:413-419: an algorithm that is already wrapped is not copied *)
Definition meta (h : heap) (object : value) (copy : bool) : option (heap * value) :=
  match copy_if copy h object with
  | None => None
  | Some (h, wrapped) =>
      Some (setattr (setattr h wrapped "__object__" object) wrapped "__super__" wrapped, wrapped)
  end.
