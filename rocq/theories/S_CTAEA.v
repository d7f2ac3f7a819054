(** * Specification side of the C-TAEA properties *)
From Coq Require Import List Arith Bool ZArith.
From Verif Require Import Flt ListAux S_Pareto S_NDS M_NDS S_Survival.
Import ListNotations.
Local Open Scope nat_scope.

(** the individuals: constraint violation at least zero, fitness above -1 (it is at least 0: the ideal point bounds every offspring from below), no NaN *)
Definition ctaea_ind_ok {A} (m : nat) (obj : A -> list flt) (cv fv : A -> flt) (a : A) : Prop :=
  length (obj a) = m /\ vec_ok (obj a) /\ fleb f_zero (cv a) = true /\ isnan (fv a) = false /\ fltb (fz (-1)) (fv a) = true.
(** only the first front: the non-dominated rows *)
Definition ff_ok (m : nat) (ff : fltmat -> list nat) : Prop :=
  forall F, F <> [] -> rect m F -> mat_ok F -> ff F <> [] /\ forall i, In i (ff F) <-> i < length F /\ forall j, j < length F -> ~ row_dom F j i.
(** [i] is a candidate: it belongs to one of the fronts of the individuals [mem] needed to have [n] of them *)
Definition candidate {A} (d : A) (obj : A -> list flt) (pop : list A) (mem : list nat) (n i : nat) : Prop :=
  exists full r p, is_peeling (length mem) (row_dom (map (fun i => obj (nth i pop d)) mem)) full /\ In p (nth r full []) /\ nth p mem 0 = i /\ length (concat (firstn r full)) < n.
(** how many of [l] lie in niche [k] *)
Definition in_niche {A} (d : A) (niche : A -> nat) (pop : list A) (l : list nat) (k : nat) : nat := length (filter (fun i => niche (nth i pop d) =? k) l).
(** those of [l] in niche [k] *)
Definition members {A} (d : A) (niche : A -> nat) (pop : list A) (l : list nat) (k : nat) : list nat := filter (fun i => niche (nth i pop d) =? k) l.
(** [x] may be removed from [surv]: no niche is more crowded than its own, and in its niche its fitness is the worst and no pair is closer than it is to another survivor,
    or it is the worse one of a closest pair, which is at most as far apart as a worst one is from any other survivor *)
Definition removes {A} (d : A) (niche : A -> nat) (fv : A -> flt) (dist : A -> A -> flt) (pop : list A) (surv : list nat) (x : nat) : Prop :=
  In x surv /\ (forall k', length (members d niche pop surv k') <= length (members d niche pop surv (niche (nth x pop d)))) /\
  let c := members d niche pop surv (niche (nth x pop d)) in
  let f i := fv (nth i pop d) in let dd i j := dist (nth i pop d) (nth j pop d) in
  (((forall y, In y c -> fleb (f y) (f x) = true) /\ forall a b, In a c -> In b c -> a <> b -> exists z, In z surv /\ z <> x /\ fleb (dd x z) (dd a b) = true) \/
   exists y w, In y c /\ y <> x /\ fleb (f y) (f x) = true /\
    (forall a b, In a c -> In b c -> a <> b -> fleb (dd x y) (dd a b) = true \/ fleb (dd y x) (dd a b) = true) /\
    In w c /\ (forall y', In y' c -> fleb (f y') (f w) = true) /\ forall z, In z surv -> z <> w -> fleb (dd x y) (dd w z) = true \/ fleb (dd y x) (dd w z) = true).
(** [r] individuals are removed one by one *)
Inductive trunc {A} (d : A) niche fv dist pop : nat -> list nat -> list nat -> Prop :=
| trunc_done surv : trunc d niche fv dist pop 0 surv surv
| trunc_step r surv x out : removes d niche fv dist pop surv x -> trunc d niche fv dist pop r (filter (fun i => negb (i =? x)) surv) out -> trunc d niche fv dist pop (S r) surv out.
