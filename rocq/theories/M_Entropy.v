(** * Model of /repo/pymoo/operators/survival/rank_and_crowding/metrics.py:121-177 [calc_crowding_entropy], label "ce" (14-16), through FunctionalDiversity (41-70).
    Real numbers extended by the infinities and NaN, with the arithmetic rules of floats (exact instead of rounded). *)
From Coq Require Import List Arith Bool Reals.
From Verif Require Import ListAux M_Crowding.
Import ListNotations.
Local Open Scope R_scope.

Inductive er := EF (r : R) | EPInf | EMInf | ENaN.
Definition eneg (a : er) : er := match a with EF r => EF (- r) | EPInf => EMInf | EMInf => EPInf | ENaN => ENaN end.
Definition eadd (a b : er) : er :=
  match a, b with
  | EF x, EF y => EF (x + y)
  | ENaN, _ | _, ENaN | EPInf, EMInf | EMInf, EPInf => ENaN
  | EPInf, _ | _, EPInf => EPInf
  | EMInf, _ | _, EMInf => EMInf
  end.
Definition esub (a b : er) : er := eadd a (eneg b).
(** an infinity times a number *)
Definition escale (inf : er) (r : R) : er := if Rlt_dec 0 r then inf else if Rlt_dec r 0 then eneg inf else ENaN.
Definition emul (a b : er) : er :=
  match a, b with
  | ENaN, _ | _, ENaN => ENaN
  | EF x, EF y => EF (x * y)
  | EF x, i => escale i x
  | i, EF y => escale i y
  | EPInf, EPInf | EMInf, EMInf => EPInf
  | _, _ => EMInf
  end.
Definition ediv (a b : er) : er :=
  match a, b with
  | ENaN, _ | _, ENaN => ENaN
  | EF x, EF y => if Req_EM_T y 0 then escale EPInf x else EF (x / y)          (* x / +0 *)
  | EF _, _ => EF 0
  | i, EF y => if Req_EM_T y 0 then i else escale i y
  | _, _ => ENaN
  end.
Definition elog2 (a : er) : er :=
  match a with ENaN => ENaN | EPInf => EPInf | EMInf => ENaN | EF x => if Rlt_dec 0 x then EF (ln x / ln 2) else if Req_EM_T x 0 then EMInf else ENaN end.
Definition fixnan (a : er) : er := match a with ENaN => EF 0 | _ => a end.

Section Entropy.
  (** np.argsort of one column, kind="mergesort" *)
  Variable asort : list R -> list nat.
  Definition rmax_of (l : list R) : R := match l with [] => 0 | x :: l => fold_left Rmax l x end.
  Definition rmin_of (l : list R) : R := match l with [] => 0 | x :: l => fold_left Rmin l x end.
  (** :141 row [k] of dist, column with sorted values [s] *)
  Definition dist_at (s : list R) (k : nat) : er :=
    esub (if (k <? length s)%nat then EF (nth k s 0) else EPInf) (match k with O => EMInf | S k' => EF (nth k' s 0) end).
  (** :144-145 *)
  Definition norm_of (s : list R) : er := let d := rmax_of s - rmin_of s in if Req_EM_T d 0 then ENaN else EF d.
  (** :148-160 *)
  Definition dl_at (s : list R) (k : nat) : er := fixnan (dist_at s k).
  Definition du_at (s : list R) (k : nat) : er := fixnan (dist_at s (S k)).
  Definition cd_at (s : list R) (k : nat) : er := eadd (dl_at s k) (du_at s k).
  (** :163-169 *)
  Definition entropy_at (s : list R) (k : nat) : er :=
    if ((k =? 0) || (S k =? length s))%nat then EPInf
    else let pl := ediv (dl_at s k) (cd_at s k) in
         let pu := ediv (du_at s k) (cd_at s k) in
         eneg (eadd (emul pl (elog2 pl)) (emul pu (elog2 pu))).
  (** :172-174: entry (i, j) *)
  Definition cej (v : list R) (i : nat) : er :=
    let J := asort v in
    let s := gather 0 v J in
    let k := index_of i J in
    fixnan (ediv (emul (cd_at s k) (entropy_at s k)) (norm_of s)).
  Definition col_of (j : nat) (F : list (list R)) : list R := map (fun r => nth j r 0) F.
  (** :175 *)
  Definition calc_crowding_entropy (m : nat) (F : list (list R)) : list er :=
    map (fun i => fold_right eadd (EF 0) (map (fun j => cej (col_of j F) i) (seq 0 m))) (seq 0 (length F)).
  (** :41-70 with filter_out_duplicates=True *)
  Definition crowding_entropy (dup : list (list R) -> list bool) (m : nat) (F : list (list R)) : list er :=
    let n := length F in
    if (n <=? 2)%nat then repeat EPInf n
    else
      let is_unique := where_ (fun i => negb (nth i (dup F) false)) n in
      let d := calc_crowding_entropy m (gather [] F is_unique) in
      fold_left (fun acc p => upd acc (fst p) (snd p)) (combine is_unique d) (repeat (EF 0) n).
End Entropy.
