(** * C100: the wrapper, instances of the sorts, examples *)
From Coq Require Import List Arith Bool ZArith QArith Lia Lqa Permutation Sorted.
From Verif Require Import ListAux M_Individual M_Survival M_RefDirs2 M_Bounds P_Bounds M_Crowding S_Crowding Thm_Decomp Thm_Crowding M_Pruning Thm_Pruning Thm_Pruning2 Thm_Pruning3 Thm_Pruning4 Thm_Pruning5.
Import ListNotations.
Local Open Scope nat_scope.

(** C100: the labels "mnn" and "2nn" without NaN: at most m (or at most 2) points are all infinite; otherwise points flagged as duplicates have 0, and the others the values of the metric of the points not flagged *)
Theorem C100_wrapper : forall function dup m F, (forall G, length (function G) = length G) ->
  let d := functional_diversity_mnn function dup m F in let U := where_ (fun i => negb (nth i (dup F) false)) (length F) in
  length d = length F /\
  (length F <= m \/ length F <= 2 -> d = repeat PInf (length F)) /\
  (m < length F -> 2 < length F ->
     (forall i, i < length F -> nth i (dup F) false = true -> nth i d PInf = Fin 0) /\
     (forall k, k < length U -> nth (nth k U 0) d PInf = nth k (function (map (fun i => nth i F []) U)) PInf)).
Proof.
  intros function dup m F HL d U. unfold d, functional_diversity_mnn. destruct (Nat.leb_spec (length F) m) as [L|L].
  - split; [apply repeat_length|]. split; [reflexivity|lia].
  - destruct (le_lt_dec (length F) 2) as [L2|L2].
    + unfold functional_diversity. replace (length F <=? 2) with true by (symmetry; now apply Nat.leb_le). split; [apply repeat_length|]. split; [reflexivity|lia].
    + destruct (C50_duplicates function dup F ltac:(lia) HL) as (D1 & D2 & D3). split; [exact D1|]. split; [lia|]. intros _ _. split; [exact D2|]. exact D3.
Qed.

(** the insertion sort of the indices is stable *)
Lemma st_sort_stable : stable_ok st_sort.
Proof.
  intros v. split; [apply argsort_perm|]. intros p q Hpq Hq. cbv zeta.
  set (R := fun a b => (nth a v 0 < nth b v 0)%Q \/ (nth a v 0 == nth b v 0)%Q /\ a < b).
  assert (SS : StronglySorted R (st_sort v)).
  { unfold st_sort, argsort. assert (INS : forall i l, StronglySorted R l -> (forall j, In j l -> j < i) -> StronglySorted R (ins_idx Qltb 0%Q v i l)).
    { induction l as [|j l IH]; intros HS HB; cbn; [repeat constructor|]. apply StronglySorted_inv in HS as [HS HF]. rewrite Forall_forall in HF. pose proof (HB j ltac:(now left)) as Hj.
      destruct (Qltb (nth j v 0%Q) (nth i v 0%Q) || negb (Qltb (nth i v 0%Q) (nth j v 0%Q))) eqn:E.
      - constructor; [apply IH; [exact HS|intros y Hy; apply HB; now right]|]. apply Forall_forall. intros y Hy. apply (Permutation_in _ (ins_idx_perm Qltb 0%Q v i l)) in Hy. destruct Hy as [<- |Hy]; [|auto].
        assert (L : (nth j v 0 <= nth i v 0)%Q). { apply orb_true_iff in E as [E|E]; [apply Qltb_iff in E; lra|]. apply negb_true_iff in E. apply Qltb_false in E. exact E. }
        unfold R. destruct (Qlt_le_dec (nth j v 0%Q) (nth i v 0%Q)); [left; lra|right; split; [lra|exact Hj]].
      - apply orb_false_iff in E as [_ E]. apply negb_false_iff in E. apply Qltb_iff in E. constructor; [constructor; [exact HS|now apply Forall_forall]|]. apply Forall_forall. intros y [<- |Hy]; [now left|]. left. destruct (HF y Hy) as [H|[H _]]; lra. }
    assert (G : forall n s acc, StronglySorted R acc -> (forall j, In j acc -> j < s) -> StronglySorted R (fold_left (fun l i => ins_idx Qltb 0%Q v i l) (seq s n) acc)).
    { induction n as [|n IH]; intros s acc HS HB; [exact HS|]. cbn [seq fold_left]. apply IH; [now apply INS|]. intros j Hj. apply (Permutation_in _ (ins_idx_perm Qltb 0%Q v s acc)) in Hj. destruct Hj as [<- |Hj]; [lia|specialize (HB j Hj); lia]. }
    apply G; [constructor|intros j []]. }
  apply (StronglySorted_nth R (st_sort v) 0 p q SS Hpq). unfold st_sort. pose proof (argsort_perm Qltb 0%Q v) as P. apply perm_seq_length in P. lia.
Qed.
(** an insertion sort with NaN last *)
Definition oleb (a b : option xq) : bool := match a, b with _, None => true | None, Some _ => false | Some a, Some b => xleb a b end.
Fixpoint oins (x : option xq) (l : list (option xq)) : list (option xq) := match l with [] => [x] | y :: l => if oleb x y then x :: y :: l else y :: oins x l end.
Definition osort (l : list (option xq)) : list (option xq) := fold_right oins [] l.
Lemma ole_iff a b : oleb a b = true <-> ole a b.
Proof. destruct a as [a|], b as [b|]; cbn; unfold xle; split; auto; try discriminate; contradiction. Qed.
Lemma ole_total a b : oleb a b = false -> ole b a.
Proof. destruct a as [a|], b as [b|]; cbn; auto; try discriminate. apply xleb_false. Qed.
Lemma ole_trans a b c : ole a b -> ole b c -> ole a c.
Proof. destruct a as [a|], b as [b|], c as [c|]; cbn; auto; try contradiction. apply xle_trans. Qed.
Lemma osort_ok : nsort_ok osort.
Proof.
  assert (IP : forall x l, Permutation (oins x l) (x :: l)) by (induction l as [|y l IH]; cbn; [reflexivity|]; destruct (oleb x y); [reflexivity|]; rewrite IH; apply perm_swap).
  intros l. split; [induction l as [|x l IH]; cbn; [constructor|]; rewrite IP; now constructor|].
  induction l as [|x l IH]; [constructor|]. change (StronglySorted ole (oins x (osort l))). revert IH. generalize (osort l). clear - IP. intros r. induction r as [|y r IH]; intros HS; cbn; [repeat constructor|]. apply StronglySorted_inv in HS as [HS HF]. destruct (oleb x y) eqn:E.
  - apply ole_iff in E. constructor; [constructor; auto|]. constructor; [exact E|]. eapply Forall_impl; [|exact HF]. intros z Hz. eapply ole_trans; eauto.
  - apply ole_total in E. constructor; [now apply IH|]. apply Forall_forall. intros z Hz. apply (Permutation_in _ (IP x r)) in Hz. destruct Hz as [<- |Hz]; [exact E|]. rewrite Forall_forall in HF. auto.
Qed.

(** five points of a front; n_remove = 2: one point (1) is dropped and the others are recomputed *)
Definition ex_G : list (list Q) := [[0; 8]; [1; 5]; [2; 4]; [4; 2]; [8; 0]]%Q.
Definition ex_lo (_ : nat) : Q := 0%Q.
Definition ex_hi (_ : nat) : Q := 8%Q.
Definition red (x : xq) : option Q := match x with Fin q => Some (Qred q) | PInf => None end.
Theorem C100_example : stable_ok st_sort /\ nsort_ok osort /\ ranges 2 ex_G ex_lo ex_hi /\ extreme 2 ex_G 0 /\ ~ extreme 2 ex_G 2 /\
  map red (calc_pcd st_sort 2 0 ex_G) = [None; Some (3 # 4); Some (3 # 4); Some (5 # 4); None]%Q /\
  map red (calc_pcd st_sort 2 2 ex_G) = [None; Some (3 # 4); Some (5 # 4); Some (5 # 4); None]%Q /\
  map red (map unsome (calc_mnn_base osort 2 0 false ex_G)) = [None; Some (5 # 1024); Some (1 # 256); Some (9 # 256); None]%Q /\
  calc_mnn_base osort 2 0 false [[0; 1]; [1; 1]; [2; 1]; [3; 1]]%Q = [Some PInf; None; None; Some PInf] /\
  calc_mnn_base osort 2 9 false [[0; 1]; [1; 1]; [2; 1]; [3; 1]; [4; 1]; [5; 1]; [6; 1]]%Q = [Some PInf; None; None; Some PInf; Some PInf; Some PInf; Some PInf].
Proof.
  split; [exact st_sort_stable|]. split; [exact osort_ok|]. split.
  { intros c Hc. assert (K : forall l x, forallb (Qle_bool x) l = true -> forall y, In y l -> (x <= y)%Q) by (intros l x H y Hy; apply Qle_bool_iff; rewrite forallb_forall in H; auto). assert (K2 : forall l x, forallb (fun y => Qle_bool y x) l = true -> forall y, In y l -> (y <= x)%Q) by (intros l x H y Hy; apply Qle_bool_iff; rewrite forallb_forall in H; exact (H y Hy)).
    destruct c as [|[|c]]; [| |lia]; (split; split; [cbn; tauto|apply K; reflexivity|cbn; tauto|apply K2; reflexivity]). }
  split; [apply extreme_iff; [discriminate|vm_compute; auto]|]. split; [intros H; apply extreme_iff in H; [|discriminate]; vm_compute in H; intuition discriminate|].
  vm_compute. repeat split; reflexivity.
Qed.
