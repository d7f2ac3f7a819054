(** * Model of the permutation operators: /repo/pymoo/operators/crossover/ox.py, /repo/pymoo/operators/crossover/erx.py,
    /repo/pymoo/operators/mutation/inversion.py.  Values are integers; random numbers are arbitrary parameters. *)
From Coq Require Import List Arith Bool ZArith.
From Verif Require Import ListAux.
Import ListNotations.
Local Open Scope nat_scope.

(** python slice l[a:b] for 0 <= a *)
Definition slice {A} (l : list A) (a b : nat) : list A := firstn (b - a) (skipn a l).

Definition memZ (v : Z) (l : list Z) : bool := existsb (Z.eqb v) l.

(** ox.py:9-12 [random_sequence]: two different positions in ascending order (every such pair may be drawn) *)
Definition valid_seq (n : nat) (start stop : nat) : Prop := start < stop < n.

(** ox.py:15-55 [ox] *)
Definition ox (receiver donor : list Z) (start stop : nat) (shift : bool) : list Z :=
  let n := length receiver in
  let donation := slice donor start (stop + 1) in
  let y := fold_left (fun y k =>
             let i := if negb shift then k else (start + k) mod n in
             let v := nth i receiver 0%Z in
             if negb (memZ v donation) then y ++ [v] else y) (seq 0 n) [] in
  firstn start y ++ donation ++ skipn start y.

(** ox.py:59-79 [OrderCrossover._do], one mating *)
Definition order_crossover (shift : bool) (a b : list Z) (start stop : nat) : list Z * list Z :=
  (ox a b start stop shift, ox b a start stop shift).

(** inversion.py:9-17 [inversion_mutation] (the slice assignment) *)
Definition inversion_mutation {A} (y : list A) (start stop : nat) : list A :=
  firstn start y ++ rev (slice y start (stop + 1)) ++ skipn (stop + 1) y.

(** ** Edge recombination.  A dict of sets: association list in insertion order; the sets are duplicate-free lists. *)
Definition adjmap := list (Z * list Z).
Fixpoint lookup (H : adjmap) (k : Z) : option (list Z) :=
  match H with
  | [] => None
  | (k', l) :: H => if Z.eqb k k' then Some l else lookup H k
  end.
Fixpoint put (H : adjmap) (k : Z) (l : list Z) : adjmap :=      (* H[k] = l *)
  match H with
  | [] => [(k, l)]
  | (k', l') :: H => if Z.eqb k k' then (k, l) :: H else (k', l') :: put H k l
  end.
Definition set_add (v : Z) (l : list Z) : list Z := if memZ v l then l else l ++ [v].
Definition keys (H : adjmap) : list Z := map fst H.
Definition removeZ (v : Z) (l : list Z) : list Z := filter (fun x => negb (Z.eqb v x)) l.

(** erx.py:118-129 [calc_adjency_matrix] *)
Definition calc_adj (x : list Z) (H : adjmap) : adjmap :=
  let n := length x in
  fold_left (fun H k =>
    let prev := (k + n - 1) mod n in
    let succ := (k + 1) mod n in
    let xk := nth k x 0%Z in
    let cur := match lookup H xk with Some l => l | None => [] end in
    put H xk (set_add (nth succ x 0%Z) (set_add (nth prev x 0%Z) cur)))
  (seq 0 n) H.

(** erx.py:9-12 [remove_from_adj_list]; [None] = KeyError *)
Fixpoint remove_all (H : adjmap) (val : Z) (es : list Z) : option adjmap :=
  match es with
  | [] => Some H
  | e :: es =>
      match lookup H e with
      | Some l => if memZ val l then remove_all (put H e (removeZ val l)) val es else None
      | None => None
      end
  end.
Definition remove_from_adj_list (H : adjmap) (val : Z) : option adjmap :=
  match lookup H val with
  | None => None
  | Some l => match remove_all H val l with
              | Some H => Some (filter (fun p => negb (Z.eqb val (fst p))) H)
              | None => None
              end
  end.

(** random_state.choice(l): the j-th random number picks any position; [None] = ValueError on an empty list *)
Definition choice {A} (rnd : nat -> nat) (j : nat) (l : list A) : option A :=
  match l with [] => None | _ => nth_error l (rnd j mod length l) end.

Definition sequence {A} (l : list (option A)) : option (list A) :=
  fold_right (fun o acc => match o, acc with Some x, Some r => Some (x :: r) | _, _ => None end) (Some []) l.
Definition list_min (l : list nat) : nat := match l with [] => 0 | x :: l => fold_left Nat.min l x end.

(** erx.py:25-79 [erx]; the while loop runs [n - len(y)] times *)
Fixpoint erx_loop (fuel : nat) (rnd : nat -> nat) (n : nat) (H : adjmap) (next : Z) (y : list Z) (j : nat) : option (list Z) :=
  let y := y ++ [next] in
  if length y =? n then Some y
  else
    match fuel with
    | O => None
    | S fuel =>
      match lookup H next with
      | None => None
      | Some neighbors =>
        match remove_from_adj_list H next with
        | None => None
        | Some H =>
          match
            (if length neighbors =? 0 then choice rnd j (keys H)
             else match sequence (map (fun e => option_map (@length Z) (lookup H e)) neighbors) with
                  | None => None
                  | Some n_neighbors =>
                      let m := list_min n_neighbors in
                      choice rnd j (map (fun k => nth k neighbors 0%Z)
                                        (filter (fun k => nth k n_neighbors 0 =? m) (seq 0 (length neighbors))))
                  end)
          with
          | None => None
          | Some next => erx_loop fuel rnd n H next y (j + 1)
          end
        end
      end
    end.
Definition erx (a b : list Z) (rnd : nat -> nat) : option (list Z) :=
  if length a =? length b then
    let H := calc_adj b (calc_adj a []) in
    match choice rnd 0 (keys H) with
    | None => None
    | Some next => erx_loop (length a) rnd (length a) H next [] 1
    end
  else None.
