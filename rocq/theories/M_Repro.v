(** * Where the library takes its random numbers from (C51)

    An operator is a program that asks a numpy Generator for numbers.  Which generator it asks is decided at every call:
    pymoo/util/__init__.py:29-34 (the wrapper of the decorator [default_random_state]) uses the passed [random_state] if there is one,
    otherwise [np.random.default_rng(seed)] of the given seed, and an unseeded generator (operating system entropy) when there is none. *)
From Coq Require Import List Arith ZArith QArith Bool.
From Verif Require Import Flt ListAux M_Bounds M_Cross M_Sampling M_Selection M_RandSort M_Survival.
Import ListNotations.
Local Open Scope nat_scope.

(** the calls the library makes on a generator *)
Inductive req : Type -> Type :=
| Random (n : nat) : req (list Q)                               (* random(n): numbers in [0,1) *)
| Normal (loc scale : list Q) : req (list Q)                    (* normal(loc, scale) *)
| Integers (lo hi : Z) (n : nat) : req (list Z)                 (* integers(lo, hi, size=n) *)
| Permutation (n : nat) : req (list nat)                        (* permutation(n) *)
| Choice (n k : nat) : req (list nat).                          (* choice(n, size=k, replace=False) *)

(** a program: [Fresh s p k] calls a decorated function [p] without passing a generator, [s] being the seed in force *)
Inductive prog : Type -> Type :=
| Ret {A} (a : A) : prog A
| Draw {A B} (r : req B) (k : B -> prog A) : prog A
| Fresh {A B} (seed : option Z) (p : prog B) (k : B -> prog A) : prog A.

(** numpy: a type of generator states, what a generator answers (and its next state), and the generator of a seed *)
Record numpy := { gen : Type; answer : forall A, req A -> gen -> A * gen; default_rng : Z -> gen }.

(** execution: [os n] is the generator that the n-th call of default_rng(None) gives - operating system entropy, different from run to run *)
Fixpoint run (N : numpy) (os : nat -> gen N) {A} (p : prog A) (g : gen N) (n : nat) : A * gen N * nat :=
  match p in prog A return A * gen N * nat with
  | Ret a => (a, g, n)
  | Draw r k => let '(x, g') := answer N _ r g in run N os (k x) g' n
  | Fresh s p k => let '(g0, n0) := match s with Some z => (default_rng N z, n) | None => (os n, S n) end in
                   let '(b, _, n1) := run N os p g0 n0 in run N os (k b) g n1
  end.

Fixpoint bind {A B} (p : prog A) : (A -> prog B) -> prog B :=
  match p in prog A return (A -> prog B) -> prog B with
  | Ret a => fun f => f a
  | Draw r k => fun f => Draw r (fun x => bind (k x) f)
  | Fresh s p k => fun f => Fresh s p (fun b => bind (k b) f)
  end.
Definition draw {A} (r : req A) : prog A := Draw r Ret.
Notation "x <- p ;; q" := (bind p (fun x => q)) (at level 61, p at next level, right associativity).
Fixpoint mapM {A B} (f : A -> prog B) (l : list A) : prog (list B) :=
  match l with [] => Ret [] | a :: l => b <- f a ;; bs <- mapM f l ;; Ret (b :: bs) end.
Fixpoint foldM {A B} (f : B -> A -> prog B) (l : list A) (b : B) : prog B :=
  match l with [] => Ret b | a :: l => b' <- f b a ;; foldM f l b' end.

(** util/__init__.py:27-42 [default_random_state]: how a decorated function may be called; [passed] means random_state=the caller's generator *)
Inductive how := Passed | Seed (z : Z) | Neither.
Definition call (default_seed : option Z) (h : how) {A} (f : prog A) : prog A :=
  match h with
  | Passed => f
  | Seed z => Fresh (Some z) f Ret
  | Neither => Fresh default_seed f Ret
  end.

(** ** operators: random numbers are taken in the order of the code; rows of a matrix are the consecutive segments of the drawn numbers *)
Definition cell (m : nat) (u : list Q) (i j : nat) : Q := nth (i * m + j) u 0%Q.

(** misc.py:106-126 [random_permutations] *)
Definition p_random_permutations (n l : nat) : prog (list nat) := P <- mapM (fun _ => draw (Permutation l)) (seq 0 n) ;; Ret (concat P).
(** misc.py:901-914 [row_at_least_once_true] *)
Definition p_row_at_least_once_true (m : nat) (M : list (list bool)) : prog (list (list bool)) :=
  mapM (fun row => if existsb (fun b => b) row then Ret row else r <- draw (Integers 0 (Z.of_nat m) 1) ;; Ret (row_at_least_once_true row (Z.to_nat (hd 0%Z r)))) M.

(** sampling/rnd.py [FloatRandomSampling], [BinaryRandomSampling], [PermutationRandomSampling] *)
Definition p_float_sampling (n m : nat) (bounds : option (list Q * list Q)) : prog (option (list (list Q))) :=
  u <- draw (Random (n * m)) ;; Ret (float_sampling n m bounds (cell m u)).
Definition p_binary_sampling (n m : nat) : prog (list (list bool)) := u <- draw (Random (n * m)) ;; Ret (binary_sampling n m (cell m u)).
Definition p_permutation_sampling (n m : nat) : prog (list (list nat)) := mapM (fun _ => draw (Permutation m)) (seq 0 n).
(** sampling/rnd.py [IntegerRandomSampling] *)
Definition p_integer_sampling (n m : nat) (xl xu : list Z) : prog (list (list Z)) :=
  cols <- mapM (fun k => draw (Integers (nth k xl 0%Z) (nth k xu 0%Z + 1) n)) (seq 0 m) ;; Ret (map (fun i => map (fun k => nth i (nth k cols []) 0%Z) (seq 0 m)) (seq 0 n)).
(** sampling/lhs.py:81-107 [sampling_lhs_unit], 37-78 [sampling_lhs] *)
Definition p_lhs_unit (asort : list Q -> list nat) (n m : nat) (smooth : bool) : prog (list (list Q)) :=
  u <- draw (Random (n * m)) ;;
  r <- (if smooth then draw (Random (n * m)) else Ret []) ;;
  Ret (lhs_unit asort n m smooth (cell m u) (cell m r)).
Definition p_sampling_lhs (asort : list Q -> list nat) (score : list (list Q) -> flt) (n m n_iter : nat) (smooth : bool) : prog (list (list Q)) :=
  X <- p_lhs_unit asort n m smooth ;;
  best <- foldM (fun best _ => Y <- p_lhs_unit asort n m smooth ;; Ret (if fltb (snd best) (score Y) then (Y, score Y) else best)) (seq 1 (n_iter - 1)) (X, score X) ;;
  Ret (fst best).

(** crossover/binx.py:11-19 [mut_binomial]; crossover/expx.py:11-40 [mut_exp]: the inner loop stops at the first refusal *)
Definition p_mut_binomial (n m : nat) (prob : list Q) (at_least_once : bool) : prog (list (list bool)) :=
  u <- draw (Random (n * m)) ;;
  let M := map (fun i => map (fun j => Qlt_b (cell m u i j) (nth i prob 0%Q)) (seq 0 m)) (seq 0 n) in
  if at_least_once then p_row_at_least_once_true m M else Ret M.
Fixpoint p_exp_run (m start : nat) (prob : Q) (fuel j : nat) (row : list bool) : prog (list bool) :=
  match fuel with
  | O => Ret row
  | S fuel => u <- draw (Random 1) ;; if Qle_bool (hd 0%Q u) prob then p_exp_run m start prob fuel (S j) (upd row ((start + j) mod m) true) else Ret row
  end.
Definition p_mut_exp (n m : nat) (prob : list Q) (at_least_once : bool) : prog (list (list bool)) :=
  s <- draw (Integers 0 (Z.of_nat m) n) ;;
  M <- mapM (fun i => p_exp_run m (Z.to_nat (nth i s 0%Z)) (nth i prob 0%Q) m 0 (repeat false m)) (seq 0 n) ;;
  if at_least_once then p_row_at_least_once_true m M else Ret M.
(** crossover/sbx.py:16-90 [cross_sbx]: which cells are crossed depends on the first numbers, how many are drawn next on the mask;
    [eligible] the mask of lines 24-30, [arith] the arithmetic of lines 33-91 *)
Definition count_true (M : list (list bool)) : nat := length (filter (fun b => b) (concat M)).
Definition p_cross_sbx {A} (n m : nat) (prob_var : list Q) (eligible : nat -> nat -> bool) (arith : list (list bool) -> list Q -> list Q -> A) : prog A :=
  u <- draw (Random (n * m)) ;;
  let cross := map (fun i => map (fun j => Qlt_b (cell m u i j) (nth i prob_var 0%Q) && eligible i j) (seq 0 m)) (seq 0 n) in
  rand <- draw (Random (count_true cross)) ;;
  bin <- draw (Random (count_true cross)) ;;
  Ret (arith cross rand bin).
(** mutation/pm.py:18-80 [mut_pm] *)
Definition p_mut_pm {A} (n m : nat) (prob : list Q) (at_least_once : bool) (fixed : nat -> bool) (arith : list (list bool) -> list Q -> A) : prog A :=
  M <- p_mut_binomial n m prob at_least_once ;;
  let mut := map (fun row => map (fun j => nth j row false && negb (fixed j)) (seq 0 m)) M in
  rand <- draw (Random (count_true mut)) ;;
  Ret (arith mut rand).
(** mutation/bitflip.py:9-14 *)
Definition p_bitflip (n m : nat) (prob : list Q) (X : nat -> nat -> bool) : prog (list (list bool)) :=
  u <- draw (Random (n * m)) ;; Ret (map (fun i => map (fun j => if Qlt_b (cell m u i j) (nth i prob 0%Q) then negb (X i j) else X i j) (seq 0 m)) (seq 0 n)).

(** repair/bounds_repair.py:128-151 [repair_random_init]: the cells below (above) the bounds, in row order, consume one number each; [Xp], [X] matrices *)
Definition mget (X : list (list Q)) (i j : nat) : Q := nth j (nth i X []) 0%Q.
Definition cells (n m : nat) : list (nat * nat) := flat_map (fun i => map (fun j => (i, j)) (seq 0 m)) (seq 0 n).
Definition pos_in (n m : nat) (P : nat -> nat -> bool) (i j : nat) : nat :=
  length (filter (fun c => P (fst c) (snd c)) (firstn (i * m + j) (cells n m))).
Definition count_cells (n m : nat) (P : nat -> nat -> bool) : nat := length (filter (fun c => P (fst c) (snd c)) (cells n m)).
Definition p_repair_random_init (n m : nat) (Xp X : list (list Q)) (xl xu : list Q) : prog (list (list Q)) :=
  let low i j := Qltb (mget Xp i j) (nth j xl 0%Q) in
  r1 <- (if count_cells n m low =? 0 then Ret [] else draw (Random (count_cells n m low))) ;;
  let X1 := matrix n m (fun i j => if low i j then (nth j xl 0 + nth (pos_in n m low i j) r1 0 * (mget X i j - nth j xl 0))%Q else mget Xp i j) in
  let high i j := Qltb (nth j xu 0%Q) (mget X1 i j) in
  r2 <- (if count_cells n m high =? 0 then Ret [] else draw (Random (count_cells n m high))) ;;
  Ret (matrix n m (fun i j => if high i j then (nth j xu 0 - nth (pos_in n m high i j) r2 0 * (nth j xu 0 - mget X i j))%Q else mget X1 i j)).

(** mutation/gauss.py:17-36 [mut_gauss]: line 34 calls repair_random_init without a generator *)
Definition p_mut_gauss (n m : nat) (X : list (list Q)) (xl xu sigma prob : list Q) : prog (list (list Q)) :=
  u <- draw (Random (n * m)) ;;
  let mut i j := Qlt_b (cell m u i j) (nth i prob 0%Q) in
  let sel := filter (fun c => mut (fst c) (snd c)) (cells n m) in
  z <- draw (Normal (map (fun c => mget X (fst c) (snd c)) sel) (map (fun c => nth (fst c) sigma 0 * (nth (snd c) xu 0 - nth (snd c) xl 0))%Q sel)) ;;
  let Xp := matrix n m (fun i j => if mut i j then nth (pos_in n m mut i j) z 0%Q else mget X i j) in
  call None Neither (p_repair_random_init n m Xp X xl xu).

(** crossover/dex.py:85-144 [DEX.do] (bounded problem): line 117 calls repair_random_init without a generator;
    [donor F] is the differential of the factors drawn, computed anew for the rows [m] still outside *)
Definition out_rows (n m : nat) (X : list (list Q)) (xl xu : list Q) : list nat :=
  filter (fun i => existsb (fun j => Qltb (mget X i j) (nth j xl 0%Q) || Qltb (nth j xu 0%Q) (mget X i j)) (seq 0 m)) (seq 0 n).
Definition p_dex (n m n_diffs n_iter : nat) (P0 : list (list Q)) (donor : list nat -> list Q -> list (list Q) -> list (list Q)) (set_rows : list nat -> list (list Q) -> list (list Q) -> list (list Q))
    (xl xu : list Q) (Fgiven : option Q) (CR : list Q) (expv at_least_once : bool) : prog (list (list Q)) :=
  F <- match Fgiven with Some f => Ret (repeat f n) | None => draw (Random n) end ;;
  J <- mapM (fun _ => draw (Random n)) (seq 0 n_diffs) ;;
  let Xp := donor (seq 0 n) F J in
  Xp <- foldM (fun Xp _ =>
          let rows := out_rows n m Xp xl xu in
          F <- draw (Random (length rows)) ;;
          J <- mapM (fun _ => draw (Random (length rows))) (seq 0 n_diffs) ;;
          Ret (set_rows rows (donor rows F J) Xp)) (seq 0 n_iter) Xp ;;
  Xp <- call None Neither (p_repair_random_init n m Xp P0 xl xu) ;;
  M <- (if expv then p_mut_exp n m CR at_least_once else p_mut_binomial n m CR at_least_once) ;;
  Ret (matrix n m (fun i j => if nth j (nth i M []) false then mget Xp i j else mget P0 i j)).

(** crossover/pcx.py:59-77 [ParentCentricCrossover._do] passes the generator on; [kernel] the arithmetic of [pcx] *)
Definition p_pcx (n m : nat) (P0 : list (list Q)) (loc scale : list Q) (kernel : list Q -> list Q -> list (list Q)) (zeta : list Q) (xl xu : list Q) : prog (list (list Q)) :=
  z <- draw (Normal loc scale) ;;
  b <- draw (Normal (map (fun _ => 0%Q) zeta) zeta) ;;
  call None Passed (p_repair_random_init n m (kernel z b) P0 xl xu).

(** randomized_argsort.py:37-55 [_quicksort] (exclusive right end [r], as in M_RandSort): the pivot is [integers(left, right + 1)] *)
Fixpoint p_quicksort_rec (fuel : nat) (A : list flt) (J : list nat) (left r : nat) : prog (list nat) :=
  match fuel with
  | O => Ret J
  | S fuel =>
      if left + 1 <? r then
        x <- draw (Integers (Z.of_nat left) (Z.of_nat r) 1) ;;
        let J := swap J (r - 1) (Z.to_nat (hd 0%Z x)) in
        let '(J, s) := partition_loop A left (r - 1) (at_ A J (r - 1)) J in
        let J := swap J (r - 1) s in
        J <- p_quicksort_rec fuel A J left s ;; p_quicksort_rec fuel A J (s + 1) r
      else Ret J
  end.
(** randomized_argsort.py:30-34 [quicksort] *)
Definition p_quicksort (A : list flt) : prog (list nat) := p_quicksort_rec (length A) A (seq 0 (length A)) 0 (length A).
(** randomized_argsort.py:9-27: method "quicksort" calls [quicksort] without the generator (line 17) *)
Definition p_randomized_argsort (asort : list flt -> list nat) (A : list flt) (m : method) (descending : bool) : prog (list nat) :=
  match m with
  | Numpy => P <- draw (Permutation (length A)) ;; Ret (M_RandSort.randomized_argsort asort A Numpy descending P (fun _ _ => 0))
  | Quicksort => J <- call None Neither (p_quicksort A) ;; Ret (if descending then rev J else J)
  end.

(** selection/tournament.py:73-123 [compare]; [random_state.choice([a, b])] *)
Definition p_compare (larger : bool) (a : nat) (a_val : flt) (b : nat) (b_val : flt) (random_if_equal : bool) : prog (option nat) :=
  match compare_ larger a a_val b b_val false true with
  | Some w => Ret (Some w)
  | None => if random_if_equal then c <- draw (Choice 2 1) ;; Ret (Some (if hd 0 c =? 0 then a else b)) else Ret None
  end.
(** soo/nonconvex/ga.py:42-73 [comp_by_cv_and_fitness]: the generator is passed to [compare];
    moo/nsga3.py:27-49 [comp_by_cv_then_random]: it is not *)
Definition p_comp_by_cv_and_fitness (pop : nat -> tind) (fit : nat -> flt) (ab : nat * nat) : prog (option nat) :=
  let '(a, b) := ab in
  if some_infeasible (pop a) (pop b) then call None Passed (p_compare false a (t_cv (pop a)) b (t_cv (pop b)) true)
  else call None Passed (p_compare false a (fit a) b (fit b) true).
Definition p_comp_by_cv_then_random (pop : nat -> tind) (ab : nat * nat) : prog (option nat) :=
  let '(a, b) := ab in
  if some_infeasible (pop a) (pop b) then call None Neither (p_compare false a (t_cv (pop a)) b (t_cv (pop b)) true)
  else c <- draw (Choice 2 1) ;; Ret (Some (if hd 0 c =? 0 then a else b)).
(** selection/tournament.py:41-70 [TournamentSelection._do] (binary tournaments): the permutations first, then the comparisons *)
Definition pair_up (P : list nat) (k : nat) : nat * nat := (nth (2 * k) P 0, nth (2 * k + 1) P 0).
Definition p_tournament (n_pop n_select n_parents : nat) (comp : nat * nat -> prog (option nat)) : prog (list (option nat)) :=
  let n_random := n_select * n_parents * 2 in
  P <- p_random_permutations (ceil_div n_random n_pop) n_pop ;;
  mapM (fun k => comp (pair_up (firstn n_random P) k)) (seq 0 (n_select * n_parents)).

(** rank_and_crowding/classes.py:66-100 [RankAndCrowding._do]: the splitting front is sorted by [randomized_argsort] with the generator;
    [fronts], [crowd] the fronts and crowding values, [need] how many of a front survive *)
Definition p_rank_and_crowding (asort : list flt -> list nat) (fronts : list (list nat)) (crowd : list nat -> nat -> list flt) (n_survive : nat) : prog (list nat) :=
  foldM (fun surv front =>
    if n_survive <? length surv + length front
    then let rem := length surv + length front - n_survive in
         J <- call None Passed (p_randomized_argsort asort (crowd front rem) Numpy true) ;;
         Ret (surv ++ gather 0 front (firstn (length front - rem) J))
    else Ret (surv ++ front)) fronts [].
(** classes.py:131-207 [ConstrRankAndCrowding._do]: the infeasible splitting front is sorted by [randomized_argsort] without the generator (line 195) *)
Definition p_constr_rank_and_crowding (asort : list flt -> list nat) (feas_fronts infeas_fronts : list (list nat)) (crowd : list nat -> nat -> list flt) (cv : nat -> flt) (n_survive : nat) : prog (list nat) :=
  surv <- p_rank_and_crowding asort feas_fronts crowd (min n_survive (length (concat feas_fronts))) ;;
  foldM (fun surv front =>
    if n_survive <? length surv + length front
    then J <- call None Neither (p_randomized_argsort asort (map cv front) Numpy false) ;;
         Ret (surv ++ gather 0 front (firstn (n_survive - length surv) J))
    else Ret (surv ++ front)) infeas_fronts surv.

(** util/archive.py:16-19 [RandomTruncation], called by [Archive.add] without a generator: the positions kept of an archive of [n] solutions *)
Definition p_archive_truncate (n max_size truncate_size : nat) : prog (list nat) :=
  if max_size <? n then call None Neither (draw (Choice n truncate_size)) else Ret (seq 0 n).

(** ** composition.  core/crossover.py:23-70 [Crossover.do] *)
Definition p_crossover_do {X} (n_parents n_off n_matings : nat) (prob : list Q) (parents : nat -> nat -> X) (_do : prog (nat -> nat -> X)) : prog (list (list X)) :=
  u <- draw (Random n_matings) ;;
  let cross k := Qlt_b (nth k u 0%Q) (nth k prob 0%Q) in
  Q <- (if existsb cross (seq 0 n_matings) then _do else Ret parents) ;;
  S <- mapM (fun k => if cross k then Ret [] else
         if n_off <? n_parents then draw (Choice n_parents n_off)
         else if n_off =? n_parents then Ret (seq 0 n_parents)
         else P <- mapM (fun _ => draw (Permutation n_parents)) (seq 0 (ceil_div n_off n_parents)) ;; Ret (firstn n_off (concat P))) (seq 0 n_matings) ;;
  Ret (map (fun o => map (fun k => if cross k then Q o k else parents (nth o (nth k S []) 0) k) (seq 0 n_matings)) (seq 0 n_off)).
(** core/mutation.py:18-40 [Mutation.do] *)
Definition p_mutation_do {X} (pop : list X) (prob : list Q) (d : X) (_do : list X -> prog (list X)) : prog (list X) :=
  Xp <- _do pop ;;
  u <- draw (Random (length pop)) ;;
  Ret (map (fun k => if Qle_bool (nth k u 0%Q) (nth k prob 0%Q) then nth k Xp d else nth k pop d) (seq 0 (length pop))).
(** core/mating.py:24-47 [Mating._do], core/infill.py:21-67 [InfillCriterion.do]: [selection], [crossover], [mutation], [repair] the operators *)
Definition p_mating {I P} (selection : list I -> nat -> prog P) (crossover : P -> prog (list I)) (mutation : list I -> prog (list I)) (n_off : nat) (pop : list I) (n : nat) : prog (list I) :=
  parents <- selection pop (ceil_div n n_off) ;; off <- crossover parents ;; mutation off.
Fixpoint p_infill {I} (iterations : nat) (mate : list I -> nat -> prog (list I)) (repair : list I -> prog (list I)) (dedup : list I -> list I -> list I -> list I) (pop : list I) (n : nat) (off : list I) : prog (list I) :=
  match iterations with
  | O => Ret off
  | S it => if n <=? length off then Ret off else
      new <- mate pop (n - length off) ;; new <- repair new ;;
      p_infill it mate repair dedup pop n (off ++ firstn (n - length off) (dedup new pop off))
  end.
(** base/genetic.py: initial population, then generations of mating, evaluation and survival; the whole run draws from [algorithm.random_state],
    made by default_rng(seed) in core/algorithm.py:124 *)
Record ga (I : Type) := {
  ga_sampling : prog (list I);
  ga_infill : list I -> prog (list I);
  ga_eval : list I -> list I;
  ga_survival : list I -> prog (list I) }.
Arguments ga_sampling {I}. Arguments ga_infill {I}. Arguments ga_eval {I}. Arguments ga_survival {I}.
Definition p_generation {I} (a : ga I) (pop : list I) : prog (list I) := off <- ga_infill a pop ;; ga_survival a (pop ++ ga_eval a off).
Definition p_ga_run {I} (a : ga I) (n_gen : nat) : prog (list I) :=
  pop <- ga_sampling a ;; pop <- ga_survival a (ga_eval a pop) ;; foldM (fun pop _ => p_generation a pop) (seq 1 n_gen) pop.
Definition p_minimize {I} (a : ga I) (seed : option Z) (n_gen : nat) : prog (list I) := Fresh seed (p_ga_run a n_gen) Ret.
