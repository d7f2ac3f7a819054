(** * Specification for C115: reading a number in a printed text, as float() does *)
From Coq Require Import Ascii String List Arith Bool ZArith QArith.
Import ListNotations.
Local Open Scope list_scope.
Local Open Scope Z_scope.
Definition digit_of (c : ascii) : option Z := let n := nat_of_ascii c in if ((48 <=? n) && (n <=? 57))%nat then Some (Z.of_nat n - 48) else None.
(** the longest prefix of digits *)
Fixpoint span (l : list ascii) : list Z * list ascii :=
  match l with
  | [] => ([], [])
  | c :: r => match digit_of c with Some d => let '(ds, r') := span r in (d :: ds, r') | None => ([], l) end
  end.
Definition number_of (ds : list Z) : Z := fold_left (fun a d => 10 * a + d) ds 0.
Fixpoint skip_spaces (l : list ascii) : list ascii := match l with c :: r => if Ascii.eqb c " " then skip_spaces r else l | [] => [] end.
(** the exponent part: nothing (0), or E, a sign, and digits up to the end *)
Definition read_exp (l : list ascii) : option Z :=
  match l with
  | [] => Some 0
  | e :: s :: r => if Ascii.eqb e "E" then
        match span r with
        | (d :: ds, []) => if Ascii.eqb s "+" then Some (number_of (d :: ds)) else if Ascii.eqb s "-" then Some (- number_of (d :: ds)) else None
        | _ => None
        end else None
  | _ => None
  end.
(** digits, possibly a point and digits, possibly an exponent *)
Definition read_unsigned (l : list ascii) : option Q :=
  match span l with
  | ([], _) => None
  | (ds, rest) =>
      let '(fs, rest) := match rest with c :: r => if Ascii.eqb c "." then span r else ([], rest) | [] => ([], []) end in
      match read_exp rest with Some e => Some (inject_Z (number_of (ds ++ fs)) * Qpower 10 (e - Z.of_nat (List.length fs)))%Q | None => None end
  end.
Definition read (l : list ascii) : option Q :=
  match skip_spaces l with
  | c :: r => if Ascii.eqb c "-" then option_map Qopp (read_unsigned r) else read_unsigned (c :: r)
  | [] => None
  end.
