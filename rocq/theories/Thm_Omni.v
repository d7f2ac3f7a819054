(** * C104: Omni-Optimizer: the loose dominance relation and the fronts it gives *)
From Coq Require Import List Arith Bool ZArith QArith Lia Lqa Permutation.
From Verif Require Import ListAux M_Dominator M_NDS S_Pareto P_Peel P_NDS1 P_NDS2 Thm_Default Thm_Default2 M_Omni.
From Verif Require M_Default.
Import ListNotations.
Local Open Scope nat_scope.

(** ** Specification *)
Definition val (F : list (list Q)) (i k : nat) : Q := nth k (nth i F []) 0%Q.
(** Pareto dominance of row i over row j *)
Definition pareto (m : nat) (F : list (list Q)) (i j : nat) : Prop :=
  (forall k, k < m -> (val F i k <= val F j k)%Q) /\ exists k, k < m /\ (val F i k < val F j k)%Q.
(** [w] is the range of objective [k] over all rows *)
Definition range_of (F : list (list Q)) (k : nat) (w : Q) : Prop := exists lo hi, col_least F k lo /\ col_greatest F k hi /\ (w == hi - lo)%Q.
(** i Pareto-dominates j and is better by more than delta times the range in some objective *)
Definition loose (delta : Q) (m : nat) (F : list (list Q)) (i j : nat) : Prop :=
  pareto m F i j /\ exists k w, k < m /\ range_of F k w /\ (val F i k + delta * w < val F j k)%Q.

Lemma qlt_iff a b : qlt a b = true <-> (a < b)%Q.
Proof. unfold qlt. rewrite negb_true_iff. destruct (Qle_bool b a) eqn:E; [apply Qle_bool_iff in E; split; [discriminate|lra]|]. split; auto. intros _. destruct (Qlt_le_dec a b) as [H|H]; auto. apply Qle_bool_iff in H. congruence. Qed.
Lemma anyq_iff p a b m : length a = m -> length b = m -> (anyq p a b = true <-> exists k, k < m /\ p (nth k a 0%Q) (nth k b 0%Q) = true).
Proof.
  intros HA HB. unfold anyq. rewrite existsb_exists. split.
  - intros (x & Hx & Hp). destruct (In_nth _ _ (0%Q, 0%Q) Hx) as (k & Hk & E). rewrite combine_length in Hk. rewrite combine_nth in E by lia. subst x. exists k. split; [lia|exact Hp].
  - intros (k & Hk & Hp). exists (nth k a 0%Q, nth k b 0%Q). split; [|exact Hp]. rewrite <- combine_nth by lia. apply nth_In. rewrite combine_length. lia.
Qed.

Section Dom.
  Variables (delta : Q) (m : nat) (F : list (list Q)).
  Hypotheses (HF : F <> []) (HL : forall r, In r F -> length r = m).
  Let eps := epsilon_of delta F.
  Lemma len_row i : i < length F -> length (nth i F []) = m.
  Proof. intros Hi. apply HL. now apply nth_In. Qed.
  Lemma range_unique k w w' : range_of F k w -> range_of F k w' -> (w == w')%Q.
  Proof.
    intros (l & h & [(r1 & A1 & E1) L1] & [(r2 & A2 & E2) H1] & Ew) (l' & h' & [(r3 & A3 & E3) L2] & [(r4 & A4 & E4) H2] & Ew').
    pose proof (L1 _ A3). pose proof (L2 _ A1). pose proof (H1 _ A4). pose proof (H2 _ A2). subst. lra.
  Qed.
  Lemma eps_spec : length eps = m /\ forall k, k < m -> exists w, range_of F k w /\ (nth k eps 0 == delta * w)%Q.
  Proof.
    destruct (col_min_spec m F HF HL) as [L1 C1]. destruct (col_max_spec m F HF HL) as [L2 C2]. unfold eps, epsilon_of. split; [rewrite map_length, map2_len; lia|].
    intros k Hk. exists (nth k (M_Default.col_max F) 0 - nth k (M_Default.col_min F) 0)%Q. split; [exists (nth k (M_Default.col_min F) 0%Q), (nth k (M_Default.col_max F) 0%Q); split; [auto|split; [auto|reflexivity]]|].
    rewrite (nth_indep _ 0%Q (delta * 0)%Q) by (rewrite map_length, map2_len; lia). rewrite (map_nth (fun r => (delta * r)%Q)). rewrite (map2_nth Qminus 0%Q 0%Q) by lia. reflexivity.
  Qed.
  Lemma entry_cases i j : i < length F -> j < length F ->
    (entry (loose_matrix delta F) i j = 1%Z /\ loose delta m F i j) \/ (entry (loose_matrix delta F) i j = (-1)%Z /\ loose delta m F j i) \/
    (entry (loose_matrix delta F) i j = 0%Z /\ ~ loose delta m F i j /\ ~ loose delta m F j i).
  Proof.
    intros Hi Hj. destruct eps_spec as [LE SE]. unfold entry, loose_matrix. fold eps.
    rewrite (nth_indep _ [] (map (loose_entry eps []) F)) by now rewrite map_length. rewrite (map_nth (fun l => map (loose_entry eps l) F)).
    rewrite (nth_indep _ 0%Z (loose_entry eps (nth i F []) [])) by now rewrite map_length. rewrite (map_nth (loose_entry eps (nth i F []))).
    pose proof (len_row i Hi) as LI. pose proof (len_row j Hj) as LJ. unfold loose_entry.
    assert (B : anyq qlt (nth i F []) (nth j F []) = true <-> exists k, k < m /\ (val F i k < val F j k)%Q).
    { rewrite (anyq_iff _ _ _ m) by auto. unfold val. split; intros (k & Hk & H); exists k; (split; [exact Hk|]); now apply qlt_iff. }
    assert (W : anyq (fun a b => qlt b a) (nth i F []) (nth j F []) = true <-> exists k, k < m /\ (val F j k < val F i k)%Q).
    { rewrite (anyq_iff _ _ _ m) by auto. unfold val. split; intros (k & Hk & H); exists k; (split; [exact Hk|]); now apply qlt_iff. }
    assert (BE : anyq qlt (map2 Qplus (nth i F []) eps) (nth j F []) = true <-> exists k w, k < m /\ range_of F k w /\ (val F i k + delta * w < val F j k)%Q).
    { rewrite (anyq_iff _ _ _ m) by (auto; rewrite map2_len; lia). unfold val. split.
      - intros (k & Hk & H). destruct (SE k Hk) as (w & R & E). exists k, w. split; auto. split; auto. apply (proj1 (qlt_iff _ _)) in H. rewrite (map2_nth Qplus 0%Q 0%Q) in H by lia. rewrite E in H. exact H.
      - intros (k & w & Hk & R & H). exists k. split; auto. destruct (SE k Hk) as (w' & R' & E). apply qlt_iff. rewrite (map2_nth Qplus 0%Q 0%Q) by lia. rewrite E, (range_unique k w' w R' R). exact H. }
    assert (WE : anyq (fun a b => qlt b a) (nth i F []) (map2 Qplus (nth j F []) eps) = true <-> exists k w, k < m /\ range_of F k w /\ (val F j k + delta * w < val F i k)%Q).
    { rewrite (anyq_iff _ _ _ m) by (auto; rewrite map2_len; lia). unfold val. split.
      - intros (k & Hk & H). destruct (SE k Hk) as (w & R & E). exists k, w. split; auto. split; auto. apply (proj1 (qlt_iff _ _)) in H. rewrite (map2_nth Qplus 0%Q 0%Q) in H by lia. rewrite E in H. exact H.
      - intros (k & w & Hk & R & H). exists k. split; auto. destruct (SE k Hk) as (w' & R' & E). apply qlt_iff. rewrite (map2_nth Qplus 0%Q 0%Q) by lia. rewrite E, (range_unique k w' w R' R). exact H. }
    assert (PI : pareto m F i j <-> (exists k, k < m /\ (val F i k < val F j k)%Q) /\ ~ (exists k, k < m /\ (val F j k < val F i k)%Q)).
    { unfold pareto. split; [intros [A C]; split; auto; intros (k & Hk & H); specialize (A k Hk); lra|]. intros [A C]. split; auto. intros k Hk. destruct (Qlt_le_dec (val F j k) (val F i k)); auto. exfalso. apply C. eauto. }
    assert (PJ : pareto m F j i <-> (exists k, k < m /\ (val F j k < val F i k)%Q) /\ ~ (exists k, k < m /\ (val F i k < val F j k)%Q)).
    { unfold pareto. split; [intros [A C]; split; auto; intros (k & Hk & H); specialize (A k Hk); lra|]. intros [A C]. split; auto. intros k Hk. destruct (Qlt_le_dec (val F i k) (val F j k)); auto. exfalso. apply C. eauto. }
    unfold loose. rewrite PI, PJ, <- B, <- W, <- BE, <- WE.
    destruct (anyq qlt (nth i F []) (nth j F [])), (anyq (fun a b => qlt b a) (nth i F []) (nth j F [])), (anyq qlt (map2 Qplus (nth i F []) eps) (nth j F [])), (anyq (fun a b => qlt b a) (nth i F []) (map2 Qplus (nth j F []) eps)); cbn; intuition congruence.
  Qed.
  Lemma pareto_irrefl i : ~ pareto m F i i.
  Proof. intros [_ (k & _ & H)]. lra. Qed.
  Lemma pareto_trans i j l : pareto m F i j -> pareto m F j l -> pareto m F i l.
  Proof. intros [A (k & Hk & B)] [C _]. split; [intros q Hq; specialize (A q Hq); specialize (C q Hq); lra|]. exists k. split; auto. specialize (C k Hk). lra. Qed.
  Lemma loose_irrefl i : ~ loose delta m F i i.
  Proof. intros [H _]. exact (pareto_irrefl i H). Qed.
  Lemma loose_trans i j l : loose delta m F i j -> loose delta m F j l -> loose delta m F i l.
  Proof.
    intros [A (k & w & Hk & R & B)] [C _]. split; [exact (pareto_trans i j l A C)|]. exists k, w. split; auto. split; auto. destruct C as [C _]. specialize (C k Hk). lra.
  Qed.
  Lemma loose_len : length (loose_matrix delta F) = length F.
  Proof. unfold loose_matrix. now rewrite map_length. Qed.
  Lemma loose_encodes : encodes (loose_matrix delta F) (loose delta m F).
  Proof.
    intros i j Hij Hj. rewrite loose_len in Hj. destruct (entry_cases i j ltac:(lia) Hj) as [[E L]|[[E L]|(E & N1 & N2)]]; rewrite E.
    - split; split; auto; try discriminate. intros L'. exfalso. apply (loose_irrefl i). exact (loose_trans i j i L L').
    - split; split; auto; try discriminate. intros L'. exfalso. apply (loose_irrefl i). exact (loose_trans i j i L' L).
    - split; split; try discriminate; intros L'; contradiction.
  Qed.
  Lemma loose_peeling : exists fronts, fast_nds_matrix (loose_matrix delta F) = Some fronts /\ is_peeling (length F) (loose delta m F) fronts.
  Proof.
    rewrite <- loose_len. apply fast_nds_matrix_peeling; [exact loose_encodes|intros i _; apply loose_irrefl|intros i j k _ _ _; apply loose_trans].
  Qed.
End Dom.

(** C104: an entry of LooseDominator's matrix is 1 exactly when the row loosely dominates the column, -1 exactly when the column loosely dominates the row *)
Theorem C104_loose_matrix : forall delta m F i j, (forall r, In r F -> length r = m) -> i < length F -> j < length F ->
  (entry (loose_matrix delta F) i j = 1%Z <-> loose delta m F i j) /\ (entry (loose_matrix delta F) i j = (-1)%Z <-> loose delta m F j i) /\
  (entry (loose_matrix delta F) i j = 0%Z <-> ~ loose delta m F i j /\ ~ loose delta m F j i).
Proof.
  intros delta m F i j HL Hi Hj. assert (HF : F <> []) by (intros ->; cbn in Hi; lia).
  assert (NB : loose delta m F i j -> loose delta m F j i -> False) by (intros A B; exact (loose_irrefl delta m F i (loose_trans delta m F i j i A B))).
  destruct (entry_cases delta m F HF HL i j Hi Hj) as [[E L]|[[E L]|(E & N1 & N2)]]; rewrite E; intuition discriminate.
Qed.
Print Assumptions C104_loose_matrix.
(** C104: it is a strict order inside Pareto dominance; without a margin it is Pareto dominance *)
Theorem C104_loose_order : forall delta m F,
  (forall i, ~ loose delta m F i i) /\ (forall i j k, loose delta m F i j -> loose delta m F j k -> loose delta m F i k) /\ (forall i j, loose delta m F i j -> pareto m F i j) /\
  ((delta == 0)%Q -> (forall r, In r F -> length r = m) -> forall i j, i < length F -> pareto m F i j -> loose delta m F i j).
Proof.
  intros delta m F. split; [apply loose_irrefl|]. split; [apply loose_trans|]. split; [now intros i j [H _]|]. intros Hd HL i j Hi [A (k & Hk & B)]. split; [split; eauto|].
  assert (HF : F <> []) by (intros ->; cbn in Hi; lia). destruct (eps_spec delta m F HF HL) as [_ SE]. destruct (SE k Hk) as (w & R & _). exists k, w. split; auto. split; auto. rewrite Hd. lra.
Qed.
Print Assumptions C104_loose_order.
(** C104: sorting with it terminates and peels by loose dominance; every Pareto-non-dominated solution is in the first front, and a solution in the first front exceeds those that Pareto-dominate it by no more than the margin in any objective *)
Theorem C104_fronts : forall delta m F, F <> [] -> (forall r, In r F -> length r = m) -> exists fronts, fast_nds_matrix (loose_matrix delta F) = Some fronts /\
  is_peeling (length F) (loose delta m F) fronts /\
  (forall i, i < length F -> (forall j, j < length F -> ~ pareto m F j i) -> In i (nth 0 fronts [])) /\
  (forall i j k w, In i (nth 0 fronts []) -> j < length F -> pareto m F j i -> k < m -> range_of F k w -> (val F i k <= val F j k + delta * w)%Q) /\
  ((delta == 0)%Q -> is_peeling (length F) (pareto m F) fronts).
Proof.
  intros delta m F HF HL. destruct (loose_peeling delta m F HF HL) as (fronts & E & HP). exists fronts. split; auto. split; auto.
  assert (HN : 0 < length fronts).
  { destruct HP as [P _]. destruct fronts; [|cbn; lia]. cbn in P. apply Permutation_nil in P. destruct F; [congruence|discriminate]. }
  assert (H0 : forall i, In i (nth 0 fronts []) <-> i < length F /\ forall j, j < length F -> ~ loose delta m F j i).
  { intros i. destruct HP as (_ & _ & P). rewrite (P 0 i HN). assert (NE : forall x, ~ in_earlier fronts 0 x) by (intros x (k & Hk & _); lia). split; [intros (A & _ & B); split; auto|intros [A B]; split; auto]. }
  split; [intros i Hi H; apply H0; split; auto; intros j Hj [L _]; exact (H j Hj L)|]. split.
  - intros i j k w Hi Hj HD Hk R. apply (proj1 (H0 i)) in Hi as [_ Hi]. destruct (Qlt_le_dec (val F j k + delta * w) (val F i k)) as [H|H]; auto. exfalso. apply (Hi j Hj). split; auto. exists k, w. auto.
  - intros Hd. destruct HP as (P1 & P2 & P3). split; auto. split; auto. intros k i Hk. rewrite (P3 k i Hk).
    destruct (C104_loose_order delta m F) as (_ & _ & O1 & O2).
    split; intros (A & B & C); split; auto; split; auto; intros j Hj NJ HD; apply (C j Hj NJ); auto.
Qed.
Print Assumptions C104_fronts.
(** C104: the first front, which is reported as the optimum, may hold a dominated solution *)
Theorem C104_dominated_optimum_refuted : exists F fronts, (forall r, In r F -> length r = 2) /\ fast_nds_matrix (loose_matrix (1 # 1000) F) = Some fronts /\ In 1 (nth 0 fronts []) /\ pareto 2 F 0 1.
Proof.
  exists [[0; 0]; [1 # 10000; 0]; [1; -1]]%Q, [[0; 1; 2]]. split; [|split; [|split]].
  - intros r [<-|[<-|[<-|[]]]]; reflexivity.
  - vm_compute. reflexivity.
  - cbn. auto.
  - split; [intros [|[|k]] Hk; [now vm_compute|now vm_compute|lia]|]. exists 0. split; [lia|now vm_compute].
Qed.
Print Assumptions C104_dominated_optimum_refuted.
Example C104_fronts_ex : exists F, F <> [] /\ (forall r, In r F -> length r = 2) /\ fast_nds_matrix (loose_matrix (1 # 1000) F) = Some [[0; 2]; [1]].
Proof. exists [[0; 0]; [1; 1]; [1 # 2000; -1]]%Q. split; [discriminate|]. split; [intros r [<-|[<-|[<-|[]]]]; reflexivity|vm_compute; reflexivity]. Qed.
