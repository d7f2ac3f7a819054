(** * C01, C02: the dominance relation and the domination matrices *)
From Coq Require Import List ZArith Bool Lia Arith Floats.SpecFloat.
From Verif Require Import Flt ListAux M_Dominator S_Pareto P_Dominator.
Import ListNotations.
Local Open Scope Z_scope.

(** C01: without constraint violations the answer is Pareto dominance *)
Theorem C01_relation_objectives : forall a b,
  vec_ok a -> vec_ok b -> length a = length b ->
  (get_relation a b None None = 1 <-> dominates a b) /\
  (get_relation a b None None = -1 <-> dominates b a) /\
  (get_relation a b None None = 0 <-> ~ dominates a b /\ ~ dominates b a).
Proof. exact get_relation_obj_spec. Qed.
Print Assumptions C01_relation_objectives.

(** C01: with constraint violations it is constrained dominance *)
Theorem C01_relation_constrained : forall a b ca cb,
  vec_ok a -> vec_ok b -> length a = length b -> isnan ca = false -> isnan cb = false ->
  (get_relation a b (Some ca) (Some cb) = 1 <-> constr_dominates ca a cb b) /\
  (get_relation a b (Some ca) (Some cb) = -1 <-> constr_dominates cb b ca a) /\
  (get_relation a b (Some ca) (Some cb) = 0 <->
     ~ constr_dominates ca a cb b /\ ~ constr_dominates cb b ca a).
Proof. exact get_relation_constr_spec. Qed.
Print Assumptions C01_relation_constrained.

(** C01: swapping the arguments negates the answer; this one holds for NaN as well *)
Theorem C01_relation_antisymmetric : forall a b cva cvb,
  length a = length b -> get_relation b a cvb cva = - get_relation a b cva cvb.
Proof. exact get_relation_antisym. Qed.
Print Assumptions C01_relation_antisymmetric.

(** C01: domination is transitive and irreflexive *)
Theorem C01_dominance_transitive : forall a b c, dominates a b -> dominates b c -> dominates a c.
Proof. exact dominates_trans. Qed.
Theorem C01_dominance_irreflexive : forall a, ~ dominates a a.
Proof. exact dominates_irrefl. Qed.
Theorem C01_constr_dominance_transitive : forall ca a cb b cc c,
  constr_dominates ca a cb b -> constr_dominates cb b cc c -> constr_dominates ca a cc c.
Proof. exact constr_dominates_trans. Qed.
Theorem C01_constr_dominance_irreflexive : forall ca a, ~ constr_dominates ca a ca a.
Proof. exact constr_dominates_irrefl. Qed.
Print Assumptions C01_dominance_transitive.
Print Assumptions C01_constr_dominance_transitive.

(** C01: with the relation as the API reports it, 1 followed by 1 gives 1 *)
Theorem C01_relation_transitive : forall a b c ca cb cc,
  vec_ok a -> vec_ok b -> vec_ok c -> length a = length b -> length b = length c ->
  isnan ca = false -> isnan cb = false -> isnan cc = false ->
  get_relation a b (Some ca) (Some cb) = 1 -> get_relation b c (Some cb) (Some cc) = 1 ->
  get_relation a c (Some ca) (Some cc) = 1.
Proof. exact get_relation_trans. Qed.
Print Assumptions C01_relation_transitive.

(** C02: every entry of the vectorised matrix is the pairwise relation (self and cross matrix) *)
Theorem C02_matrix_entry : forall m F i j,
  rect m F -> (i < length F)%nat -> (j < length F)%nat ->
  entry (calc_domination_matrix F None f_zero) i j = get_relation (nth i F []) (nth j F []) None None.
Proof. exact matrix_entry. Qed.
Theorem C02_matrix_entry_cross : forall m F G i j,
  rect m F -> rect m G -> (i < length F)%nat -> (j < length G)%nat ->
  entry (calc_domination_matrix F (Some G) f_zero) i j = get_relation (nth i F []) (nth j G []) None None.
Proof. exact matrix_entry_cross. Qed.
Print Assumptions C02_matrix_entry.
Print Assumptions C02_matrix_entry_cross.

(** C02: antisymmetric with a zero diagonal, for every tolerance, NaN allowed *)
Theorem C02_matrix_antisymmetric : forall m F eps i j,
  rect m F -> (i < length F)%nat -> (j < length F)%nat ->
  entry (calc_domination_matrix F None eps) j i = - entry (calc_domination_matrix F None eps) i j.
Proof. exact matrix_antisym. Qed.
Theorem C02_matrix_diagonal : forall m F eps i,
  rect m F -> (i < length F)%nat -> entry (calc_domination_matrix F None eps) i i = 0.
Proof. exact matrix_diag. Qed.
Print Assumptions C02_matrix_antisymmetric.
Print Assumptions C02_matrix_diagonal.

(** C02: the loop-based matrix holds the constrained relation everywhere *)
Theorem C02_loop_matrix_entry : forall m F CV i j,
  rect m F -> (i < length F)%nat -> (j < length F)%nat ->
  entry (calc_domination_matrix_loop F CV) i j =
  get_relation (nth i F []) (nth j F []) (Some (nth i CV f_nan)) (Some (nth j CV f_nan)).
Proof. exact loop_matrix_entry. Qed.
Print Assumptions C02_loop_matrix_entry.

(** the hypotheses are met by non-trivial data, and the functions compute the expected answers *)
Example ex_rel_1 : vec_ok [fz 1; f_inf] /\ get_relation [fz 1; f_inf] [fz 2; f_inf] None None = 1.
Proof. split; [repeat constructor | reflexivity]. Qed.
Example ex_rel_2 : get_relation [fz 5; fz 5] [fz 1; fz 1] (Some (fz 0)) (Some (fz 3)) = 1.
Proof. reflexivity. Qed.
Example ex_rect : rect 2 [[fz 1; fz 4]; [fz 2; fz 4]; [fz 0; fz 9]].
Proof. repeat constructor. Qed.
Example ex_matrix : calc_domination_matrix [[fz 1; fz 4]; [fz 2; fz 4]; [fz 0; fz 9]] None f_zero
  = [[0; 1; 0]; [-1; 0; 0]; [0; 0; 0]].
Proof. vm_compute. reflexivity. Qed.
Example ex_matrix_loop : calc_domination_matrix_loop [[fz 1; fz 4]; [fz 2; fz 4]; [fz 0; fz 9]] [fz 0; fz 0; fz 1]
  = [[0; 1; 1]; [-1; 0; 1]; [-1; -1; 0]].
Proof. vm_compute. reflexivity. Qed.
