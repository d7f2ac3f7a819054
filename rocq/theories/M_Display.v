(** * Model of /repo/pymoo/util/display/column.py, output.py, display.py, progress.py (the text printed with verbose=True), of the columns of single.py and multi.py, and of
    the lines of /repo/pymoo/core/algorithm.py that set the output up.  A text is a list of characters.  Floats are exact rationals, infinities or NaN; negative zero is
    not distinguished, and number * 1e5 is compared exactly.  The % operator prints the correctly rounded (half to even) decimal, as CPython does. *)
From Coq Require Import Ascii String List Arith Bool ZArith QArith Qround Qabs.
Import ListNotations.
Local Open Scope list_scope.
Notation text := (list ascii).
Local Open Scope Z_scope.

(** the characters '0'..'9' *)
Definition chr (d : Z) : ascii := ascii_of_nat (48 + Z.to_nat d).
Definition str (s : string) : text := list_ascii_of_string s.
(** decimal digits of a natural number, most significant first; [fuel] steps are enough for numbers below 10 ^ fuel *)
Fixpoint digits_fuel (fuel : nat) (n : Z) : list Z :=
  match fuel with
  | O => [n]
  | S f => if n <? 10 then [n] else digits_fuel f (n / 10) ++ [n mod 10]
  end.
Definition digits (n : Z) : list Z := digits_fuel (Z.to_nat (Z.log2 n)) n.
(** exactly [k] digits of n mod 10 ^ k *)
Fixpoint padded (k : nat) (n : Z) : list Z := match k with O => [] | S k => padded k (n / 10) ++ [n mod 10] end.
Definition dec (n : Z) : text := map chr (digits n).
(** str(n) of an int *)
Definition str_int (n : Z) : text := if n <? 0 then str "-" ++ dec (- n) else dec n.

(** the integer closest to [q], half to even *)
Definition round_even (q : Q) : Z :=
  let f := Qfloor q in let r := (q - inject_Z f)%Q in
  match (r ?= 1 # 2)%Q with Lt => f | Gt => f + 1 | Eq => if Z.even f then f else f + 1 end.
Definition pow10 (k : Z) : Q := Qpower 10 k.
Definition point (k : nat) (frac : text) : text := match k with O => [] | _ => str "." ++ frac end.
(** "%.kf" % q *)
Definition fmt_f (k : nat) (q : Q) : text :=
  let n := round_even (Qabs q * pow10 (Z.of_nat k)) in
  (if Qle_bool 0 q then [] else str "-") ++ dec (n / 10 ^ Z.of_nat k) ++ point k (map chr (padded k n)).
(** the exponent: 10 ^ e <= a < 10 ^ (e + 1) for a > 0 *)
Fixpoint neg_exp (fuel : nat) (a : Q) : Z := match fuel with O => 0 | S f => if Qle_bool 1 a then 0 else neg_exp f (a * 10) - 1 end.
Definition exponent (a : Q) : Z :=
  if Qle_bool 1 a then Z.of_nat (List.length (digits (Qfloor a))) - 1 else neg_exp (List.length (digits (Zpos (Qden a)))) a.
(** "%.kE" % q: mantissa with k digits after the point, exponent with at least two digits *)
Definition fmt_exp (e : Z) : text := (if e <? 0 then str "E-" else str "E+") ++ (if Z.abs e <? 10 then str "0" else []) ++ dec (Z.abs e).
Definition sci (k : nat) (q : Q) : Z * Z :=
  let a := Qabs q in
  if Qeq_bool q 0 then (0, 0)
  else let e := exponent a in let n := round_even (a * pow10 (Z.of_nat k - e)) in
       if n =? 10 ^ (Z.of_nat k + 1) then (10 ^ Z.of_nat k, e + 1) else (n, e).
Definition fmt_E (k : nat) (q : Q) : text :=
  let '(n, e) := sci k q in
  (if Qle_bool 0 q then [] else str "-") ++ dec (n / 10 ^ Z.of_nat k) ++ point k (map chr (padded k n)) ++ fmt_exp e.

(** the value of a column; only floats (float, np.floating) are formatted, everything else goes through str() *)
Inductive value := VNone | VStr (s : text) | VInt (n : Z) | VFloat (q : Q) | VInf (neg : bool) | VNaN.
(** column.py:33-37 [number_to_text]; None: the ValueError of a negative precision *)
Definition number_to_text (v : value) (width : nat) : option text :=
  match v with
  | VFloat q =>
      if Qle_bool 10 q || negb (Qle_bool 1 (q * 100000)) then (if (7 <=? width)%nat then Some (fmt_E (width - 7) q) else None)
      else (if (3 <=? width)%nat then Some (fmt_f (width - 3) q) else None)
  | VInf neg => if (7 <=? width)%nat then Some (if neg then str "-INF" else str "INF") else None
  | VNaN => if (3 <=? width)%nat then Some (str "nan") else None
  | _ => None
  end.
(** column.py:40-52 [format_text] after the None of Column.text (lines 22-27) has become "-" *)
Definition rjust (width : nat) (t : text) : text := repeat " "%char (width - List.length t) ++ t.
Definition format_text (v : value) (width : nat) (truncate : bool) : option text :=
  let raw := match v with VNone => Some (str "-") | VStr s => Some s | VInt n => Some (str_int n) | _ => number_to_text v width end in
  match raw with
  | None => None
  | Some t => Some (rjust width (if truncate && (width <? List.length t)%nat then firstn width t else t))
  end.
(** str.center: the odd space goes to the left if the width is odd, to the right otherwise *)
Definition center (width : nat) (t : text) : text :=
  let marg := (width - List.length t)%nat in
  let left := (marg / 2 + (if Nat.odd marg && Nat.odd width then 1 else 0))%nat in
  if (width <=? List.length t)%nat then t else repeat " "%char left ++ t ++ repeat " "%char (marg - left).

(** column.py:6-13, without the function *)
Record column := { col_name : text; col_width : nat; col_truncate : bool; col_value : value }.
(** " | ".join *)
Definition sep : text := str " | ".
Fixpoint join_cols (l : list text) : text := match l with [] => [] | [x] => x | x :: l => x ++ sep ++ join_cols l end.
(** output.py:71-87 [header], 89-96 [text]; None: an exception *)
Definition header (cols : list column) : text := join_cols (map (fun c => center (col_width c) (col_name c)) cols).
Definition nl : ascii := ascii_of_nat 10.
Definition header_border (cols : list column) : text :=
  let h := header cols in let line := repeat "="%char (List.length h) in line ++ [nl] ++ h ++ [nl] ++ line.
Fixpoint all_some {A} (l : list (option A)) : option (list A) :=
  match l with [] => Some [] | Some x :: l => option_map (cons x) (all_some l) | None :: _ => None end.
Definition row_text (cols : list column) : option text :=
  option_map join_cols (all_some (map (fun c => format_text (col_value c) (col_width c) (col_truncate c)) cols)).

(** ** which columns: output.py:57-61, single.py:42-69, multi.py:37-74 *)
Definition colspec := (string * nat)%type.
Definition base_columns : list colspec := [("n_gen"%string, 6%nat); ("n_eval"%string, 8%nat)].
Definition cv_columns (constr : bool) : list colspec := if constr then [("cv_min"%string, 13%nat); ("cv_avg"%string, 13%nat)] else [].
Record pinfo := { p_constr : bool; p_has_pf : bool; p_n_obj : nat }.
Definition single_columns (p : pinfo) : list colspec :=
  cv_columns (p_constr p) ++ [("f_avg"%string, 13%nat); ("f_min"%string, 13%nat)] ++ (if p_has_pf p then [("f_gap"%string, 13%nat)] else []).
Definition multi_columns (p : pinfo) : list colspec :=
  [("n_nds"%string, 6%nat)] ++ cv_columns (p_constr p) ++
  (if p_has_pf p then [("igd"%string, 13%nat); ("gd"%string, 13%nat)] ++ (if (p_n_obj p =? 2)%nat then [("hv"%string, 13%nat)] else [])
   else [("eps"%string, 13%nat); ("indicator"%string, 13%nat)]).

(** ** Output objects on a heap: core/callback.py:28-36 (initialize once), display.py:12-36, core/algorithm.py:110-140 (setup), 319-320 *)
Record output := { o_init : bool; o_cols : list colspec }.
Record algo := { a_output : option nat; a_display : option (option nat * bool); a_problem : option pinfo }.
Record world := { w_outputs : list output; w_algos : list algo; w_printed : list (nat * (option (list colspec) * list colspec)) }.
Section World.
  (** [added p]: the columns initialize() appends *)
  Variable added : pinfo -> list colspec.
  Definition fresh_output : output := {| o_init := false; o_cols := base_columns |}.
  Inductive op :=
  | NewOutput                                                     (** SingleObjectiveOutput() / MultiObjectiveOutput() *)
  | NewAlgorithm (out : option nat)                               (** the constructor, with an output object (a default argument is one, too) or none *)
  | Setup (i : nat) (p : pinfo) (verbose : bool) (out : option nat)  (** algorithm.setup(problem, verbose=.., [output=..]) *)
  | Generation (i : nat).                                         (** the end of an iteration: self.display(self) *)
  Fixpoint set_nth {A} (l : list A) (k : nat) (v : A) : list A := match l, k with [], _ => [] | _ :: l, O => v :: l | x :: l, S k => x :: set_nth l k v end.
  Definition do_op (w : world) (o : op) : world :=
    match o with
    | NewOutput => {| w_outputs := w_outputs w ++ [fresh_output]; w_algos := w_algos w; w_printed := w_printed w |}
    | NewAlgorithm out => {| w_outputs := w_outputs w; w_algos := w_algos w ++ [{| a_output := out; a_display := None; a_problem := None |}]; w_printed := w_printed w |}
    | Setup i p verbose given =>
        match nth_error (w_algos w) i with
        | None => w
        | Some a =>
            (* the output is copied, then the given one takes its place *)
            let '(outs, out) := match a_output a with
                                | Some k => (w_outputs w ++ [nth k (w_outputs w) fresh_output], Some (List.length (w_outputs w)))
                                | None => (w_outputs w, None)
                                end in
            let out := match given with Some k => Some k | None => out end in
            let disp := match a_display a with Some d => Some d | None => Some (out, verbose) end in
            {| w_outputs := outs; w_algos := set_nth (w_algos w) i {| a_output := out; a_display := disp; a_problem := Some p |}; w_printed := w_printed w |}
        end
    | Generation i =>
        match nth_error (w_algos w) i with
        | Some {| a_display := Some (Some k, true); a_problem := Some p |} =>
            let out := nth k (w_outputs w) fresh_output in
            let out' := if o_init out then out else {| o_init := true; o_cols := o_cols out ++ added p |} in
            {| w_outputs := set_nth (w_outputs w) k out'; w_algos := w_algos w;
               w_printed := w_printed w ++ [(i, ((if o_init out then None else Some (o_cols out')), o_cols out'))] |}
        | _ => w
        end
    end.
  Definition do_ops (w : world) (os : list op) : world := fold_left do_op os w.
  Definition printed_by (i : nat) (w : world) : list (option (list colspec) * list colspec) := map snd (filter (fun e => (fst e =? i)%nat) (w_printed w)).
End World.
Definition world0 : world := {| w_outputs := []; w_algos := []; w_printed := [] |}.

(** ** progress.py:35-50 [ProgressBar.set], exact arithmetic: the new maximum and the value shown *)
Definition bar_set (non_decreasing : bool) (mx v : Q) : Q * Q :=
  let mx' := if non_decreasing then (if negb (Qle_bool v mx) then v else mx) else mx in
  let v' := if non_decreasing then mx' else v in
  (mx', (inject_Z (Qfloor (v' * 100)) / 100)%Q).
Fixpoint bar_run (non_decreasing : bool) (mx : Q) (vs : list Q) : list Q :=
  match vs with [] => [] | v :: vs => let '(mx, s) := bar_set non_decreasing mx v in s :: bar_run non_decreasing mx vs end.
