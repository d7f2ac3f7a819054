(** * Model of the evolution strategies: /repo/pymoo/algorithms/soo/nonconvex/es.py, sres.py, isres.py.
    Population level: individuals of any type; [surv pop n] the positions chosen by survival.do.  Variation: one coordinate at a time, exact rational arithmetic;
    the log-normal factor of the step size is any positive number [e], normal numbers are any numbers [z]. *)
From Coq Require Import List Arith Bool ZArith QArith Qround.
From Verif Require Import Flt ListAux M_Survival M_Optimum M_RandSort M_Repro M_Bounds.
Import ListNotations.
Local Open Scope nat_scope.

(** es.py:46-58 [__init__]: (pop_size, n_offsprings); None: assertion *)
Definition es_sizes (rule : Q) (n_off pop_size : option nat) : option (nat * nat) :=
  let ceil q := Z.to_nat (Qceiling q) in let floor q := Z.to_nat (Qfloor q) in let q n := inject_Z (Z.of_nat n) in
  let '(p, o) := match n_off, pop_size with
                 | None, None => (ceil (q 200%nat * rule)%Q, 200)
                 | Some o, None => (ceil (q o * rule)%Q, o)
                 | None, Some p => (p, floor (q p / rule)%Q)
                 | Some o, Some p => (p, o)
                 end in
  if (2 * p <=? o) then Some (p, o) else None.

Section ES.
  Context {A : Type} (d : A) (obj : A -> list flt) (cv : A -> flt) (feas : A -> bool) (pr : list (list flt) -> list nat).
  Variable surv : list A -> nat -> list nat.
  (** es.py:127-133, sres.py:47-53 [_advance] *)
  Definition es_advance (pop_size : nat) (pop infills : list A) : list A :=
    let merged := if length infills <? pop_size then infills ++ pop else infills in gather d merged (surv merged pop_size).
  (** es.py:135-137 [_set_optimum] *)
  Definition es_set_opt (opt : option (list A)) (pop : list A) : option (list A) :=
    filter_optimum d obj cv feas pr 1 (Some (match opt with None => pop | Some o => o ++ pop end)) true.
  (** base/genetic.py:82-91 [_initialize_advance] and the iterations *)
  Definition es_start (infills : list A) : list A * option (list A) :=
    let pop := gather d infills (surv infills (length infills)) in (pop, es_set_opt None pop).
  Fixpoint es_run (pop_size : nat) (gens : list (list A)) (st : list A * option (list A)) : list A * option (list A) :=
    match gens with
    | [] => st
    | inf :: gens => let pop := es_advance pop_size (fst st) inf in es_run pop_size gens (pop, es_set_opt (snd st) pop)
    end.
End ES.

(** sres.py:12-33 [StochasticRankingSurvival._do] (filter_infeasible = False): [u] the random numbers *)
Definition sres_survival {A} (f phi : A -> flt) (asort : list flt -> list nat) (hc : bool) (PR : Q) (u : nat -> nat -> Q) (pop : list A) (n : nat) : list nat :=
  firstn n (if hc then stochastic_ranking (map f pop) (map phi pop) PR (Some (seq 0 (length pop))) u else asort (map f pop)).
(** sres.py:50: survival.do is called without random_state, so the decorator makes an unseeded generator (M_Repro.call).  The numbers are drawn in one block *)
Definition p_sres_survival (f phi : list flt) (asort : list flt -> list nat) (hc : bool) (PR : Q) (n : nat) : prog (list nat) :=
  call None Neither (if hc then M_Repro.bind (draw (Random (length f * length f))) (fun u => Ret (firstn n (stochastic_ranking f phi PR (Some (seq 0 (length f))) (cell (length f) u))))
                     else Ret (firstn n (asort f))).

(** ** variation *)
Local Open Scope Q_scope.
(** es.py:76-79 [_setup]: sigma_max = (xu - xl) / sqrt(n_var), [rt] = 1 / sqrt(n_var); raises without bounds *)
Definition es_sigma_max (rt : Q) (xl xu : option (list Q)) : option (list Q) :=
  match xl, xu with Some xl, Some xu => Some (map (fun r => r * rt) (map2 Qminus xu xl)) | _, _ => None end.
(** es.py:159-184 [es_mut_repair], one entry: [zs] the (at most 10) normal numbers of the retries *)
Fixpoint es_repair (x sigma xl xu : Q) (zs : list Q) (xp : Q) : Q :=
  if Qltb xp xl || Qltb xu xp then match zs with [] => x | z :: zs => es_repair x sigma xl xu zs (x + sigma * z) end else xp.
Definition qmin2 (a b : Q) : Q := if Qle_bool a b then a else b.
(** es.py:90-125 [_infill] with 138-154: offspring i, coordinate j: (x, sigma); [X], [sigma]: the population; [k i j]: the recombination partner (an index below n_offsprings) *)
Definition es_child (mu : nat) (gamma : option Q) (bounded : bool) (X sigma : nat -> nat -> Q) (smax xl xu : nat -> Q)
    (k : nat -> nat -> nat) (e z : nat -> nat -> Q) (zs : nat -> nat -> list Q) (i j : nat) : Q * Q :=
  let p := (i mod mu)%nat in
  let s1 := qmin2 (smax j) ((sigma p j + sigma (k i j mod mu)%nat j) / 2 * e i j) in
  let normal := (X p j + s1 * z i j, s1) in
  let '(xp, s) := match gamma with
                  | Some g => if (i <? mu - 1)%nat then (X i j + g * (X 0%nat j - X (S i) j), sigma i j) else normal
                  | None => normal
                  end in
  (if bounded then es_repair (X p j) s (xl j) (xu j) (zs i j) xp else xp, s).
(** isres.py:36-71 [_infill]: [mu'] = min(mu, len(X)) *)
Definition isres_child (mu mu' : nat) (gamma alpha : Q) (X sigma : nat -> nat -> Q) (smax xl xu : nat -> Q) (e z : nat -> nat -> Q) (zs : nat -> nat -> list Q) (i j : nat) : Q * Q :=
  let p := (i mod mu')%nat in
  let elite := (i <? mu - 1)%nat in
  let s1 := if elite then sigma p j else qmin2 (smax j) (sigma p j * e i j) in
  let xp := if elite then X p j + gamma * (X 0%nat j - X (S i mod mu')%nat j) else X p j + s1 * z i j in
  (es_repair (X p j) s1 (xl j) (xu j) (zs i j) xp, if (i <? mu)%nat then s1 else sigma p j + alpha * (s1 - sigma p j)).
