(** * Model of /repo/pymoo/algorithms/moo/rnsga3.py: [AspirationPointSurvival._do], [get_ref_dirs_from_points], [line_plane_intersection], [RNSGA3.__init__] (population size)
      and of [NSGA3._set_optimum] (/repo/pymoo/algorithms/moo/nsga3.py:125-130), which R-NSGA-III inherits.
      Reference directions in exact real arithmetic (the normalised reference points must be finite, i.e. nadir <> ideal in every objective); the survival on binary64 distances as in M_NSGA3;
      ideal, worst and nadir point in exact rational arithmetic as in M_Norm. *)
From Coq Require Import List Arith Bool Reals QArith.
From Verif Require Import Flt ListAux M_NDS M_Survival M_Optimum M_NSGA3 M_Norm M_RNSGA.
Import ListNotations.

Section Directions.
  Local Open Scope R_scope.
  Definition dotR (a b : list R) : R := rsumR (map2 Rmult a b).
  (** rnsga3.py:234-260; the direction of the line is l1 - l0 *)
  Definition line_plane_intersection (l0 l1 p0 p_no : list R) (eps : R) : list R :=
    let l := map2 Rminus l1 l0 in
    let dot := dotR l p_no in
    if Rlt_dec eps (Rabs dot) then map2 Rplus l0 (map (fun x => x * (dotR (map2 Rminus p0 l0) p_no / dot)) l)
    else map2 Rminus l1 (map (fun x => dotR (map2 Rminus l1 p0) p_no * x) p_no).
  Definition eye (m : nat) : list (list R) := map (fun i => map (fun j => if (i =? j)%nat then 1 else 0) (seq 0 m)) (seq 0 m).
  (** np.mean(.., axis=0) *)
  Definition mean_rows (m : nat) (rows : list (list R)) : list R := map (fun j => rsumR (map (fun r => nth j r 0) rows) / INR (length rows)) (seq 0 m).
  Definition plane_tol : R := / 1000000.
  (** rnsga3.py:194-217, one reference point *)
  Definition dirs_of_point (m : nat) (mu : R) (dirs : list (list R)) (point : list R) : list (list R) :=
    let sh := map (map (fun x => mu * x)) dirs in
    let cent := mean_rows m sh in
    let intercept := line_plane_intersection (repeat 0 m) point (nth 0 (eye m) []) (map (fun x => x / sqrt (INR m)) (repeat 1 m)) plane_tol in
    let shift := map2 Rminus intercept cent in
    let d := map (fun r => map2 Rplus r shift) sh in
    if forallb (forallb (fun x => if Rlt_dec 0 x then true else false)) d then d
    else map (fun r => let c := map (fun x => if Rlt_dec x 0 then 0 else x) r in map (fun x => x / rsumR c) c) d.
  (** rnsga3.py:186-228 *)
  Definition get_ref_dirs_from_points (m : nat) (mu : R) (dirs points : list (list R)) : list (list R) := concat (map (dirs_of_point m mu dirs) points) ++ eye m.
End Directions.
(** rnsga3.py:57, [pop_size] *)
Definition rn3_pop_size (n_points n_dirs m : nat) : nat := n_points * n_dirs + m.

Section Survival.
  Local Open Scope nat_scope.
  Variables (perm : nat -> nat -> list nat) (shuf : nat -> list nat -> list nat).
  Variables (nds : fltmat -> nat -> list (list nat)) (n_dirs : nat) (drow : list flt -> list flt).
  (** rnsga3.py:100-183; unlike nsga3.py:180-181 there is no fallback when the intersection is empty *)
  Definition aspiration_survival (F : fltmat) (n_survive : nat) : option (list nat * list nat) :=
    let fronts := nds F n_survive in
    let J := concat fronts in
    let F' := gather [] F J in
    let fronts := renumber 0 fronts in
    let D := map drow F' in
    let niches := map niche_of D in
    let dists := map dist_of D in
    let closest := np_unique (map (fun v => np_argmin (map (fun row => nth v row f_nan) D)) (np_unique niches)) in
    let opt := intersect (nth 0 fronts []) closest in
    if n_survive <? length J then
      let last_front := last fronts [] in
      let until_last := if length fronts =? 1 then [] else concat (removelast fronts) in
      let count := if length fronts =? 1 then repeat 0 n_dirs else calc_niche_count n_dirs (gather 0 niches until_last) in
      let n_remaining := if length fronts =? 1 then n_survive else n_survive - length until_last in
      match niching perm shuf (gather 0 niches last_front) (gather f_nan dists last_front) n_remaining count with
      | None => None
      | Some st => Some (gather 0 J (until_last ++ gather 0 last_front (n_surv st)), gather 0 J opt)
      end
    else Some (J, gather 0 J opt).
End Survival.
(** nsga3.py:125-130 [NSGA3._set_optimum]: [old] is the optimum reported before, [surv_opt] = survival.opt *)
Definition nsga3_set_optimum {A} (d : A) (cv : A -> flt) (feas : A -> bool) (pop surv_opt old : list A) : list A :=
  if existsb feas pop then match surv_opt with [] => old | _ => surv_opt end
  else [nth (np_argmin (map cv pop)) pop d].

Section Points.
  Local Open Scope Q_scope.
  (** rnsga3.py:104-105, one objective: ideal and worst over the objective values and the reference points; [None]: +-infinity *)
  Definition rn3_points (old : option (Q * Q)) (F refs : list Q) : option (Q * Q) :=
    fold_left (fun o x => Some (match o with None => (x, x) | Some (lo, hi) => ((if Qle_bool lo x then lo else x), (if Qle_bool x hi then hi else x)) end)) (F ++ refs) old.
  (** rnsga3.py:119-128: worst_of_population and worst_of_front are handed over in the wrong order *)
  Definition rn3_nadir (solve : list (list Q) -> option (list Q)) (extreme : list (list Q)) (ideal worst worst_of_population worst_of_front : list Q) : list Q :=
    get_nadir_point solve extreme ideal worst worst_of_population worst_of_front.
End Points.
