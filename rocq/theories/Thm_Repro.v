(** * C51: reproducibility under a seed *)
From Coq Require Import List Arith ZArith QArith Bool Lia.
From Verif Require Import Flt ListAux M_Bounds M_Cross M_Sampling M_Selection M_RandSort M_Survival M_Repro.
Import ListNotations.
Local Open Scope nat_scope.

(** ** specification
    Two executions with the same generator [g], whatever the operating system's entropy ([os1], [os2]) and however many unseeded generators
    were made before, give the same value and leave the generator in the same state: all randomness comes from the passed generator. *)
Definition outcome {A} (N : numpy) (os : nat -> gen N) (p : prog A) (g : gen N) (n : nat) : A * gen N := fst (run N os p g n).
Definition reproducible {A} (p : prog A) : Prop :=
  forall (N : numpy) (os1 os2 : nat -> gen N) (g : gen N) (n1 n2 : nat), outcome N os1 p g n1 = outcome N os2 p g n2.

(** ** closure *)
Lemma rep_ret {A} (a : A) : reproducible (Ret a).
Proof. intros N o1 o2 g n1 n2. reflexivity. Qed.
Lemma rep_Draw {A B} (r : req B) (k : B -> prog A) : (forall x, reproducible (k x)) -> reproducible (Draw r k).
Proof. intros H N o1 o2 g n1 n2. unfold outcome. cbn. destruct (answer N B r g) as [x g']. apply H. Qed.
Lemma rep_draw {A} (r : req A) : reproducible (draw r).
Proof. apply rep_Draw. intros x. apply rep_ret. Qed.
Lemma run_bind {A B} (p : prog A) : forall (f : A -> prog B) N os g n, run N os (bind p f) g n = let '(a, g', n') := run N os p g n in run N os (f a) g' n'.
Proof.
  induction p as [A a|A C r k IH|A C s p IHp k IHk]; intros f N os g n; cbn; auto.
  - destruct (answer N C r g) as [x g']. apply IH.
  - destruct s as [z|]; (match goal with |- context [run N os p ?g0 ?n0] => destruct (run N os p g0 n0) as [[b g1] n1] end); apply IHk.
Qed.
Lemma rep_bind {A B} (p : prog A) (f : A -> prog B) : reproducible p -> (forall x, reproducible (f x)) -> reproducible (bind p f).
Proof.
  intros Hp Hf N o1 o2 g n1 n2. unfold outcome. rewrite !run_bind. specialize (Hp N o1 o2 g n1 n2). unfold outcome in Hp.
  destruct (run N o1 p g n1) as [[a1 g1] m1], (run N o2 p g n2) as [[a2 g2] m2]. cbn in Hp. injection Hp as -> ->. apply Hf.
Qed.
Lemma rep_seed {A} z (p : prog A) : reproducible p -> reproducible (Fresh (Some z) p Ret).
Proof.
  intros Hp N o1 o2 g n1 n2. unfold outcome. cbn. specialize (Hp N o1 o2 (default_rng N z) n1 n2). unfold outcome in Hp.
  destruct (run N o1 p (default_rng N z) n1) as [[a1 g1] m1], (run N o2 p (default_rng N z) n2) as [[a2 g2] m2]. cbn in *. injection Hp as -> _. reflexivity.
Qed.
Lemma rep_mapM {A B} (f : A -> prog B) l : (forall a, In a l -> reproducible (f a)) -> reproducible (mapM f l).
Proof. induction l as [|a l IH]; intros H; cbn [mapM]; [apply rep_ret|]. apply rep_bind; [apply H; cbn; auto|]. intros b. apply rep_bind; [apply IH; intros; apply H; cbn; auto|]. intros. apply rep_ret. Qed.
Lemma rep_foldM {A B} (f : B -> A -> prog B) l : (forall b a, In a l -> reproducible (f b a)) -> forall b, reproducible (foldM f l b).
Proof. induction l as [|a l IH]; intros H b; cbn [foldM]; [apply rep_ret|]. apply rep_bind; [apply H; cbn; auto|]. intros b'. apply IH. intros; apply H; cbn; auto. Qed.
Ltac rep := repeat (cbv zeta; match goal with
  | |- reproducible (Ret _) => apply rep_ret
  | |- reproducible (draw _) => apply rep_draw
  | |- reproducible (bind _ _) => apply rep_bind; [|intros ?]
  | |- reproducible (mapM _ _) => apply rep_mapM; intros ? ?
  | |- reproducible (foldM _ _ _) => apply rep_foldM; intros ? ? ?
  | |- reproducible (if ?b then _ else _) => destruct b
  | |- reproducible (match ?o with Some _ => _ | None => _ end) => destruct o
  end).

(** C51, the decorator: a passed generator is used as it is; with a seed the call is reproducible and leaves the caller's generator alone;
    a function with a default seed is reproducible even when nothing is given *)
Theorem C51_decorator : forall A (f : prog A) d z, reproducible f ->
  reproducible (call d Passed f) /\ (forall N os g n, outcome N os (call d Passed f) g n = outcome N os f g n) /\
  reproducible (call d (Seed z) f) /\ reproducible (call (Some z) Neither f) /\
  (forall N os g n, outcome N os (call d (Seed z) f) g n = (fst (outcome N os f (default_rng N z) n), g)) /\
  (forall N os g n, outcome N os (call (Some z) Neither f) g n = (fst (outcome N os f (default_rng N z) n), g)).
Proof.
  intros A f d z Hf. repeat split; auto; cbn [call]; try now apply rep_seed.
  all: intros N os g n; unfold outcome; cbn; destruct (run N os f (default_rng N z) n) as [[a g1] m]; reflexivity.
Qed.
Print Assumptions C51_decorator.

(** ** the operators that only use the passed generator *)
Lemma rep_rows m M : reproducible (p_row_at_least_once_true m M).
Proof. unfold p_row_at_least_once_true. rep. Qed.
Lemma rep_binomial n m prob al : reproducible (p_mut_binomial n m prob al).
Proof. unfold p_mut_binomial. rep; apply rep_rows. Qed.
Lemma rep_exp_run m s pr fuel : forall j row, reproducible (p_exp_run m s pr fuel j row).
Proof. induction fuel as [|fuel IH]; intros j row; cbn [p_exp_run]; rep; apply IH. Qed.
Lemma rep_exp n m prob al : reproducible (p_mut_exp n m prob al).
Proof. unfold p_mut_exp. rep; first [apply rep_exp_run|apply rep_rows]. Qed.
Lemma rep_lhs_unit asort n m s : reproducible (p_lhs_unit asort n m s).
Proof. unfold p_lhs_unit. rep. Qed.
Lemma rep_repair n m Xp X xl xu : reproducible (p_repair_random_init n m Xp X xl xu).
Proof. unfold p_repair_random_init. rep. Qed.
Lemma rep_perms n l : reproducible (p_random_permutations n l).
Proof. unfold p_random_permutations. rep. Qed.
Lemma rep_compare lg a av b bv r : reproducible (p_compare lg a av b bv r).
Proof. unfold p_compare. rep. Qed.
Lemma rep_qs fuel A : forall J l r, reproducible (p_quicksort_rec fuel A J l r).
Proof.
  induction fuel as [|fuel IH]; intros J l r; cbn [p_quicksort_rec]; [apply rep_ret|]. destruct (l + 1 <? r); [|apply rep_ret]. apply rep_bind; [apply rep_draw|]. intros x.
  destruct (partition_loop A l (r - 1) _ _) as [J' s]. apply rep_bind; [apply IH|]. intros. apply IH.
Qed.

(** C51, sampling *)
Theorem C51_sampling : forall n m,
  (forall b, reproducible (p_float_sampling n m b)) /\ reproducible (p_binary_sampling n m) /\ reproducible (p_permutation_sampling n m) /\
  (forall xl xu, reproducible (p_integer_sampling n m xl xu)) /\ (forall asort score it smooth, reproducible (p_sampling_lhs asort score n m it smooth)).
Proof.
  intros n m. repeat split; intros; unfold p_float_sampling, p_binary_sampling, p_permutation_sampling, p_integer_sampling, p_sampling_lhs; rep; apply rep_lhs_unit.
Qed.
Print Assumptions C51_sampling.
(** C51, crossover: the masks of the binomial and exponential crossover, SBX and PCX *)
Theorem C51_crossover : forall n m,
  (forall prob al, reproducible (p_mut_binomial n m prob al)) /\ (forall prob al, reproducible (p_mut_exp n m prob al)) /\
  (forall A prob elig (arith : _ -> _ -> _ -> A), reproducible (p_cross_sbx n m prob elig arith)) /\
  (forall P0 loc scale kernel zeta xl xu, reproducible (p_pcx n m P0 loc scale kernel zeta xl xu)).
Proof.
  intros n m. repeat split; intros; [apply rep_binomial|apply rep_exp|unfold p_cross_sbx; rep|]. unfold p_pcx. rep; cbn [call]; apply rep_repair.
Qed.
Print Assumptions C51_crossover.
(** C51, mutation: polynomial mutation and bit flip *)
Theorem C51_mutation : forall n m prob,
  (forall A al fixed (arith : _ -> _ -> A), reproducible (p_mut_pm n m prob al fixed arith)) /\ (forall X, reproducible (p_bitflip n m prob X)).
Proof. intros n m prob. split; intros; unfold p_mut_pm, p_bitflip; rep; apply rep_binomial. Qed.
Print Assumptions C51_mutation.
(** C51, selection and survival: tournaments with a reproducible comparison, the comparison of the single-objective GA, sorting with ties
    broken at random ("numpy" method, and the quicksort itself), rank and crowding survival *)
Theorem C51_selection :
  (forall n_pop k par comp, (forall ab, reproducible (comp ab)) -> reproducible (p_tournament n_pop k par comp)) /\
  (forall pop fit ab, reproducible (p_comp_by_cv_and_fitness pop fit ab)) /\
  (forall asort A desc, reproducible (p_randomized_argsort asort A Numpy desc)) /\ (forall A, reproducible (p_quicksort A)) /\
  (forall asort fronts crowd n, reproducible (p_rank_and_crowding asort fronts crowd n)).
Proof.
  split; [|split; [|split; [|split]]]; intros.
  - unfold p_tournament. rep; first [apply H|apply rep_perms].
  - destruct ab as [a b]. unfold p_comp_by_cv_and_fitness. cbn [call]. rep; apply rep_compare.
  - unfold p_randomized_argsort. rep.
  - apply rep_qs.
  - unfold p_rank_and_crowding, p_randomized_argsort. cbn [call]. rep.
Qed.
Print Assumptions C51_selection.
(** C51, composition: an operator class built from a reproducible kernel is reproducible, mating is if its parts are, and so is a whole run:
    [minimize] with a seed gives the same final population every time *)
Theorem C51_compose :
  (forall X np no nm prob (parents : nat -> nat -> X) kernel, reproducible kernel -> reproducible (p_crossover_do np no nm prob parents kernel)) /\
  (forall X (pop : list X) prob d kernel, (forall P, reproducible (kernel P)) -> reproducible (p_mutation_do pop prob d kernel)) /\
  (forall I P (sel : list I -> nat -> prog P) cx mu no pop n, (forall p k, reproducible (sel p k)) -> (forall p, reproducible (cx p)) -> (forall p, reproducible (mu p)) -> reproducible (p_mating sel cx mu no pop n)) /\
  (forall I it (mate : list I -> nat -> prog (list I)) repair dedup pop n off, (forall p k, reproducible (mate p k)) -> (forall p, reproducible (repair p)) -> reproducible (p_infill it mate repair dedup pop n off)).
Proof.
  split; [|split; [|split]]; intros.
  - unfold p_crossover_do. rep; auto.
  - unfold p_mutation_do. rep; auto.
  - unfold p_mating. rep; auto.
  - revert off. induction it as [|it IH]; intros off; cbn [p_infill]; rep; auto.
Qed.
Print Assumptions C51_compose.
Theorem C51_minimize : forall I (a : ga I) z n_gen,
  reproducible (ga_sampling a) -> (forall p, reproducible (ga_infill a p)) -> (forall p, reproducible (ga_survival a p)) ->
  reproducible (p_minimize a (Some z) n_gen) /\
  forall N os1 os2 g1 g2 n1 n2, fst (outcome N os1 (p_minimize a (Some z) n_gen) g1 n1) = fst (outcome N os2 (p_minimize a (Some z) n_gen) g2 n2).
Proof.
  intros J a z n_gen H1 H2 H3. assert (HR : reproducible (p_ga_run a n_gen)) by (unfold p_ga_run, p_generation; rep; auto). split; [now apply rep_seed|].
  intros. specialize (HR N os1 os2 (default_rng N z) n1 n2). unfold outcome, p_minimize in *. cbn.
  destruct (run N os1 (p_ga_run a n_gen) _ n1) as [[b1 h1] m1], (run N os2 (p_ga_run a n_gen) _ n2) as [[b2 h2] m2]. cbn in *. now injection HR.
Qed.
Print Assumptions C51_minimize.

(** ** the operators that do not *)
Definition Nq : numpy := {|
  gen := Q;
  answer := fun A r g => match r in req A return A * Q with
    | Random n => (repeat g n, g)
    | Normal loc _ => (repeat 2%Q (length loc), g)
    | Integers lo hi n => (repeat (if Qeq_bool g 0 then lo else (hi - 1)%Z) n, g)
    | Permutation n => (if Qeq_bool g 0 then seq 0 n else rev (seq 0 n), g)
    | Choice n k => (firstn k (if Qeq_bool g 0 then seq 0 n else rev (seq 0 n)), g)
    end;
  default_rng := fun _ => 0%Q |}.
Ltac refute := intros H; specialize (H Nq (fun _ => 0%Q) (fun _ => (1 # 2)%Q) 0%Q 0 0); vm_compute in H; discriminate.
(** the claim for Gaussian mutation: a mutated value outside the bounds is repaired with numbers of an unseeded generator *)
Theorem C51_gauss_refuted : ~ (forall n m X xl xu sigma prob, reproducible (p_mut_gauss n m X xl xu sigma prob)).
Proof. intros H. specialize (H 1 1 [[(1 # 2)%Q]] [0%Q] [1%Q] [(1 # 10)%Q] [1%Q]). revert H. refute. Qed.
Print Assumptions C51_gauss_refuted.
(** for DE crossover *)
Theorem C51_dex_refuted : ~ (forall n m nd it P0 donor setr xl xu F CR ex al, reproducible (p_dex n m nd it P0 donor setr xl xu F CR ex al)).
Proof. intros H. specialize (H 1 1 1 1 [[(1 # 2)%Q]] (fun _ _ _ => [[3%Q]]) (fun _ new _ => new) [0%Q] [1%Q] None [1%Q] false true). revert H. refute. Qed.
Print Assumptions C51_dex_refuted.
(** for the random quicksort reached through [randomized_argsort(method="quicksort")] *)
Theorem C51_quicksort_refuted : ~ (forall asort A desc, reproducible (p_randomized_argsort asort A Quicksort desc)).
Proof. intros H. specialize (H (fun _ => []) [fz 1%Z; fz 1%Z] false). revert H. refute. Qed.
Print Assumptions C51_quicksort_refuted.
(** for the mating selection of NSGA-III: ties in constraint violation *)
Theorem C51_nsga3_refuted : ~ (forall pop ab, reproducible (p_comp_by_cv_then_random pop ab)).
Proof. intros H. specialize (H (fun _ => mkT (fz 1%Z) [] f_nan f_nan f_nan f_nan 0 f_nan) (0, 1)). revert H. refute. Qed.
Print Assumptions C51_nsga3_refuted.
(** for the constrained rank and crowding survival (GDE3): the splitting front of infeasible solutions *)
Theorem C51_constr_refuted : ~ (forall asort ff inf crowd cv n, reproducible (p_constr_rank_and_crowding asort ff inf crowd cv n)).
Proof. intros H. specialize (H (fun l => seq 0 (length l)) [] [[0; 1]] (fun _ _ => []) (fun _ => fz 1%Z) 1). revert H. refute. Qed.
Print Assumptions C51_constr_refuted.

(** for an archive of limited size (random truncation, the default) *)
Theorem C51_archive_refuted : ~ (forall n mx tr, reproducible (p_archive_truncate n mx tr)).
Proof. intros H. specialize (H 2 1 1). revert H. refute. Qed.
Print Assumptions C51_archive_refuted.

(** where the exceptions are harmless: the repair draws nothing and changes nothing when all values are within the bounds, so Gaussian mutation and
    DE crossover differ from run to run only when they leave the box; NSGA-III only when two constraint violations are equal;
    the constrained survival only when an infeasible front must be split *)
Lemma count0 n m P : (forall i j, i < n -> j < m -> P i j = false) -> count_cells n m P = 0.
Proof.
  intros H. unfold count_cells. assert (HF : forall l, (forall c, In c l -> fst c < n /\ snd c < m) -> filter (fun c => P (fst c) (snd c)) l = []).
  { induction l as [|c l IH]; intros Hc; auto. cbn [filter]. destruct (Hc c) as [A B]; [cbn; auto|]. rewrite (H _ _ A B). apply IH. intros; apply Hc; cbn; auto. }
  rewrite HF; auto. intros c Hc. unfold cells in Hc. apply in_flat_map in Hc. destruct Hc as (i & Hi & Hc). apply in_map_iff in Hc. destruct Hc as (j & <- & Hj). apply in_seq in Hi, Hj. cbn. lia.
Qed.
Lemma matrix_ext {A} n m (f g : nat -> nat -> A) : (forall i j, i < n -> j < m -> f i j = g i j) -> matrix n m f = matrix n m g.
Proof. intros H. unfold matrix. apply map_ext_in. intros i Hi. apply in_seq in Hi. apply map_ext_in. intros j Hj. apply in_seq in Hj. apply H; lia. Qed.
Lemma mget_matrix n m f i j : i < n -> j < m -> mget (matrix n m f) i j = f i j.
Proof.
  intros Hi Hj. unfold mget, matrix. rewrite (nth_indep _ [] (map (f 0) (seq 0 m))) by (now rewrite map_length, seq_length). rewrite (map_nth (fun i => map (f i) (seq 0 m))), seq_nth by auto. cbn [Nat.add].
  rewrite (nth_indep _ 0%Q (f i 0)) by (now rewrite map_length, seq_length). now rewrite (map_nth (f i)), seq_nth.
Qed.
Theorem C51_repair_inside : forall n m Xp X xl xu, (forall i j, i < n -> j < m -> (nth j xl 0 <= mget Xp i j <= nth j xu 0)%Q) ->
  p_repair_random_init n m Xp X xl xu = Ret (matrix n m (mget Xp)).
Proof.
  intros n m Xp X xl xu H. assert (HL : forall i j, i < n -> j < m -> Qltb (mget Xp i j) (nth j xl 0%Q) = false).
  { intros i j Hi Hj. unfold Qltb. destruct (Qle_bool (nth j xl 0%Q) (mget Xp i j)) eqn:E; auto. exfalso. apply not_true_iff_false in E. apply E, Qle_bool_iff. now apply H. }
  assert (HU : forall i j, i < n -> j < m -> Qltb (nth j xu 0%Q) (mget Xp i j) = false).
  { intros i j Hi Hj. unfold Qltb. destruct (Qle_bool (mget Xp i j) (nth j xu 0%Q)) eqn:E; auto. exfalso. apply not_true_iff_false in E. apply E, Qle_bool_iff. now apply H. }
  unfold p_repair_random_init. rewrite (count0 n m _ HL). cbn [Nat.eqb bind]. rewrite (matrix_ext n m _ (mget Xp)) by (intros i j Hi Hj; now rewrite HL).
  rewrite count0 by (intros i j Hi Hj; rewrite mget_matrix by auto; now apply HU). cbn [Nat.eqb bind]. f_equal. apply matrix_ext. intros i j Hi Hj. rewrite mget_matrix by auto. now rewrite HU.
Qed.
Print Assumptions C51_repair_inside.
Theorem C51_nsga3_distinct : forall pop a b, (fltb (t_cv (pop a)) (t_cv (pop b)) = true \/ fltb (t_cv (pop b)) (t_cv (pop a)) = true \/ some_infeasible (pop a) (pop b) = false) -> reproducible (p_comp_by_cv_then_random pop (a, b)).
Proof.
  intros pop a b H. unfold p_comp_by_cv_then_random. destruct (some_infeasible (pop a) (pop b)); [|rep]. destruct H as [H|[H|H]]; [| |discriminate].
  - unfold p_compare, compare_. rewrite H. intros N o1 o2 g n1 n2. reflexivity.
  - unfold p_compare, compare_. rewrite H. destruct (fltb (t_cv (pop a)) (t_cv (pop b))); intros N o1 o2 g n1 n2; reflexivity.
Qed.
Print Assumptions C51_nsga3_distinct.
Theorem C51_constr_unsplit : forall asort ff inf crowd cv n, length (concat ff) + length (concat inf) <= n -> reproducible (p_constr_rank_and_crowding asort ff inf crowd cv n).
Proof.
  intros asort ff inf crowd cv n H. unfold p_constr_rank_and_crowding.
  assert (HR : forall k ff s, length s + length (concat ff) <= k -> foldM (fun surv front => if k <? length surv + length front then let rem := length surv + length front - k in bind (call None Passed (p_randomized_argsort asort (crowd front rem) Numpy true)) (fun J => Ret (surv ++ gather 0 front (firstn (length front - rem) J))) else Ret (surv ++ front)) ff s = Ret (s ++ concat ff)).
  { intros k. induction ff0 as [|f fs IH]; intros s Hs; cbn [foldM concat]; [now rewrite app_nil_r|]. cbn [concat] in Hs. rewrite app_length in Hs. replace (k <? length s + length f) with false by (symmetry; apply Nat.ltb_ge; lia). cbn [bind]. rewrite IH by (rewrite app_length; lia). now rewrite app_assoc. }
  unfold p_rank_and_crowding. rewrite HR by (cbn; lia). cbn [bind app].
  assert (HI : forall inf s, length s + length (concat inf) <= n -> foldM (fun surv front => if n <? length surv + length front then bind (call None Neither (p_randomized_argsort asort (map cv front) Numpy false)) (fun J => Ret (surv ++ gather 0 front (firstn (n - length surv) J))) else Ret (surv ++ front)) inf s = Ret (s ++ concat inf)).
  { induction inf0 as [|f fs IH]; intros s Hs; cbn [foldM concat]; [now rewrite app_nil_r|]. cbn [concat] in Hs. rewrite app_length in Hs. replace (n <? length s + length f) with false by (symmetry; apply Nat.ltb_ge; lia). cbn [bind]. rewrite IH by (rewrite app_length; lia). now rewrite app_assoc. }
  rewrite HI by lia. apply rep_ret.
Qed.
Print Assumptions C51_constr_unsplit.

(** a GA with the library's float sampling, random mating by bit-free operators and rank survival meets the hypotheses of C51_minimize, and really draws *)
Definition case_ga : ga (list Q) := {|
  ga_sampling := X <- p_float_sampling 3 2 (Some ([0%Q; 0%Q], [1%Q; 2%Q])) ;; Ret (match X with Some X => X | None => [] end);
  ga_infill := fun pop => P <- p_random_permutations 1 (length pop) ;; u <- draw (Random 2) ;; Ret [nth (hd 0 P) pop []; u];
  ga_eval := fun p => p;
  ga_survival := fun pop => S <- p_rank_and_crowding (fun l => seq 0 (length l)) [seq 0 (length pop)] (fun f _ => map (fun _ => fz 1%Z) f) 3 ;; Ret (map (fun i => nth i pop []) S) |}.
Example C51_case : reproducible (ga_sampling case_ga) /\ (forall p, reproducible (ga_infill case_ga p)) /\ (forall p, reproducible (ga_survival case_ga p)) /\
  fst (outcome Nq (fun _ => 0%Q) (ga_sampling case_ga) (1 # 2)%Q 0) <> fst (outcome Nq (fun _ => 0%Q) (ga_sampling case_ga) 0%Q 0) /\
  length (fst (outcome Nq (fun _ => 0%Q) (p_minimize case_ga (Some 1%Z) 4) 0%Q 0)) = 3.
Proof.
  split; [cbn [ga_sampling case_ga]; unfold p_float_sampling; rep|]. split; [intros p; cbn [ga_infill case_ga]; rep; apply rep_perms|]. split; [intros p; cbn [ga_survival case_ga]; unfold p_rank_and_crowding, p_randomized_argsort; cbn [call]; rep|].
  split; [vm_compute; discriminate|vm_compute; reflexivity].
Qed.
