(** * C103: crowding entropy *)
From Coq Require Import List Arith Bool Reals Lra Lia Permutation.
From Verif Require Import ListAux M_Crowding Thm_Crowding M_Entropy.
Import ListNotations.
Local Open Scope R_scope.

(** ** specification, for one objective with values [v] *)
Definition stable_argsort (v : list R) (J : list nat) : Prop :=
  Permutation J (seq 0 (length v)) /\
  forall a b, (a < b < length v)%nat -> nth (nth a J 0%nat) v 0 < nth (nth b J 0%nat) v 0 \/ (nth (nth a J 0%nat) v 0 = nth (nth b J 0%nat) v 0 /\ (nth a J 0 < nth b J 0)%nat).
(** the first of the least values, the last of the greatest ones *)
Definition first_least (v : list R) (i : nat) : Prop := forall i', (i' < length v)%nat -> nth i v 0 < nth i' v 0 \/ (nth i v 0 = nth i' v 0 /\ (i <= i')%nat).
Definition last_greatest (v : list R) (i : nat) : Prop := forall i', (i' < length v)%nat -> nth i' v 0 < nth i v 0 \/ (nth i' v 0 = nth i v 0 /\ (i' <= i)%nat).
Definition tied (v : list R) (i : nat) : Prop := exists i', (i' < length v)%nat /\ i' <> i /\ nth i' v 0 = nth i v 0.
Definition next_below (v : list R) (x lo : R) : Prop := In lo v /\ lo < x /\ forall y, In y v -> y < x -> y <= lo.
Definition next_above (v : list R) (x hi : R) : Prop := In hi v /\ x < hi /\ forall y, In y v -> x < y -> hi <= y.
Definition least_of (v : list R) (a : R) : Prop := In a v /\ forall y, In y v -> a <= y.
Definition greatest_of (v : list R) (a : R) : Prop := In a v /\ forall y, In y v -> y <= a.
(** the entropy, in bits, of a split into the shares p and 1 - p *)
Definition bits (p : R) : R := - (p * (ln p / ln 2) + (1 - p) * (ln (1 - p) / ln 2)).
Definition ce_entry (v : list R) (i : nat) (c : er) : Prop :=
  let x := nth i v 0 in
  ((forall y, In y v -> y = x) -> c = EF 0) /\
  ((exists y, In y v /\ y <> x) ->
     (first_least v i \/ last_greatest v i -> c = EPInf) /\
     (~ first_least v i -> ~ last_greatest v i ->
        (tied v i -> c = EF 0) /\
        (~ tied v i -> exists lo hi a b, next_below v x lo /\ next_above v x hi /\ least_of v a /\ greatest_of v b /\ c = EF ((hi - lo) * bits ((x - lo) / (hi - lo)) / (b - a))))).

(** ** lemmas *)
Lemma rmax_of_spec l : l <> [] -> greatest_of l (rmax_of l).
Proof.
  destruct l as [|x l]; [congruence|]. intros _. unfold greatest_of, rmax_of. revert x. induction l as [|y l IH]; intros x; cbn [fold_left]; [split; [now left|intros y [<-|[]]; lra]|].
  destruct (IH (Rmax x y)) as [A B]. split.
  - destruct A as [A|A]; [|right; now right]. rewrite <- A. unfold Rmax. destruct (Rle_dec x y); [right; now left|now left].
  - intros z [<-|[<-|Hz]]; [| |apply B; now right]; (eapply Rle_trans; [|apply B; now left]); [apply Rmax_l|apply Rmax_r].
Qed.
Lemma rmin_of_spec l : l <> [] -> least_of l (rmin_of l).
Proof.
  destruct l as [|x l]; [congruence|]. intros _. unfold least_of, rmin_of. revert x. induction l as [|y l IH]; intros x; cbn [fold_left]; [split; [now left|intros y [<-|[]]; lra]|].
  destruct (IH (Rmin x y)) as [A B]. split.
  - destruct A as [A|A]; [|right; now right]. rewrite <- A. unfold Rmin. destruct (Rle_dec x y); [now left|right; now left].
  - intros z [<-|[<-|Hz]]; [| |apply B; now right]; (eapply Rle_trans; [apply B; now left|]); [apply Rmin_l|apply Rmin_r].
Qed.

Lemma plog0 : emul (EF 0) (elog2 (EF 0)) = ENaN.
Proof. unfold elog2. destruct (Rlt_dec 0 0); [lra|]. destruct (Req_EM_T 0 0); [|lra]. cbn [emul]. unfold escale. destruct (Rlt_dec 0 0); [lra|reflexivity]. Qed.
Lemma eadd_nan a : eadd a ENaN = ENaN. Proof. destruct a; reflexivity. Qed.
Lemma emul_nan a : emul a ENaN = ENaN. Proof. destruct a; reflexivity. Qed.
Lemma ediv_fin x y : y <> 0 -> ediv (EF x) (EF y) = EF (x / y).
Proof. intros H. unfold ediv. destruct (Req_EM_T y 0); [congruence|reflexivity]. Qed.
Section Col.
  Variables (v : list R) (J : list nat).
  Hypothesis HJ : stable_argsort v J.
  Let n := length v.
  Let s := gather 0 v J.
  Lemma ent_lenJ : length J = n. Proof. destruct HJ as [P _]. apply Permutation_length in P. now rewrite seq_length in P. Qed.
  Lemma ent_lens : length s = n. Proof. unfold s, gather. rewrite map_length. apply ent_lenJ. Qed.
  Lemma ent_NDJ : NoDup J. Proof. destruct HJ as [P _]. eapply Permutation_NoDup; [symmetry; exact P|apply seq_NoDup]. Qed.
  Lemma s_nth k : (k < n)%nat -> nth k s 0 = nth (nth k J 0%nat) v 0.
  Proof. intros Hk. unfold s, gather. rewrite (nth_indep _ 0 (nth 0%nat v 0)) by (rewrite map_length, ent_lenJ; auto). apply (map_nth (fun i => nth i v 0)). Qed.
  Lemma J_lt k : (k < n)%nat -> (nth k J 0 < n)%nat.
  Proof. intros Hk. destruct HJ as [P _]. assert (H : In (nth k J 0%nat) J) by (apply nth_In; rewrite ent_lenJ; auto). apply (Permutation_in _ P) in H. apply in_seq in H. unfold n. lia. Qed.
  Lemma pos_of i : (i < n)%nat -> (index_of i J < n)%nat /\ nth (index_of i J) J 0%nat = i.
  Proof. intros Hi. destruct HJ as [P _]. rewrite <- ent_lenJ. apply index_of_spec. apply (Permutation_in _ (Permutation_sym P)). apply in_seq. unfold n in Hi. lia. Qed.
  Lemma s_mono a b : (a <= b < n)%nat -> nth a s 0 <= nth b s 0.
  Proof. intros H. destruct (Nat.eq_dec a b) as [->|]; [lra|]. rewrite !s_nth by lia. destruct HJ as [_ S]. destruct (S a b) as [K|[K _]]; [unfold n in H; lia|lra|lra]. Qed.
  Lemma s_In y : In y s <-> In y v.
  Proof.
    split; intros H.
    - apply (In_nth _ _ 0) in H. destruct H as (k & K1 & <-). rewrite ent_lens in K1. rewrite s_nth by auto. apply nth_In, J_lt, K1.
    - apply (In_nth _ _ 0) in H. destruct H as (i & I1 & <-). destruct (pos_of i I1) as [P1 P2]. rewrite <- P2, <- s_nth by auto. apply nth_In. rewrite ent_lens. auto.
  Qed.
  Lemma pos0 i : (i < n)%nat -> index_of i J = 0%nat <-> first_least v i.
  Proof.
    intros Hi. destruct (pos_of i Hi) as [P1 P2]. destruct HJ as [_ SV]. split.
    - intros E i' Hi'. destruct (pos_of i' Hi') as [Q1 Q2]. rewrite E in P2. destruct (Nat.eq_dec (index_of i' J) 0) as [E'|N].
      + rewrite E' in Q2. assert (i = i') by congruence. subst. right. split; [reflexivity|lia].
      + destruct (SV 0%nat (index_of i' J)) as [K|[K1 K2]]; [unfold n in *; lia| |]; rewrite P2, Q2 in *; [left; lra|right; split; [lra|lia]].
    - intros H. destruct (Nat.eq_dec (index_of i J) 0) as [|N]; auto. exfalso. destruct (SV 0%nat (index_of i J)) as [K|[K1 K2]]; [unfold n in *; lia| |];
      destruct (H (nth 0%nat J 0%nat)) as [M|[M1 M2]]; try (apply J_lt; lia); rewrite P2 in *; try lra; try lia.
  Qed.
  Lemma posn i : (i < n)%nat -> S (index_of i J) = n <-> last_greatest v i.
  Proof.
    intros Hi. destruct (pos_of i Hi) as [P1 P2]. destruct HJ as [_ SV]. split.
    - intros E i' Hi'. destruct (pos_of i' Hi') as [Q1 Q2]. destruct (Nat.eq_dec (index_of i' J) (index_of i J)) as [E'|N].
      + assert (i = i') by congruence. subst. right. split; [reflexivity|lia].
      + destruct (SV (index_of i' J) (index_of i J)) as [K|[K1 K2]]; [unfold n in *; lia| |]; rewrite P2, Q2 in *; [left; lra|right; split; [lra|lia]].
    - intros H. destruct (Nat.eq_dec (S (index_of i J)) n) as [|N]; auto. exfalso. destruct (SV (index_of i J) (n - 1)%nat) as [K|[K1 K2]]; [unfold n in *; lia| |];
      destruct (H (nth (n - 1) J 0%nat)) as [M|[M1 M2]]; try (apply J_lt; lia); rewrite P2 in *; try lra; try lia.
  Qed.
  Lemma norm_const i : (i < n)%nat -> (forall y, In y v -> y = nth i v 0) -> norm_of s = ENaN.
  Proof.
    intros Hi H. unfold norm_of. assert (Hs : s <> []) by (intros C; pose proof ent_lens as L; rewrite C in L; simpl in L; lia).
    destruct (rmax_of_spec s Hs) as [A _]. destruct (rmin_of_spec s Hs) as [B _]. apply s_In, H in A. apply s_In, H in B. rewrite A, B. destruct (Req_EM_T _ 0); auto. lra.
  Qed.
  Lemma norm_range i : (i < n)%nat -> (exists y, In y v /\ y <> nth i v 0) -> exists a b, least_of v a /\ greatest_of v b /\ a < b /\ norm_of s = EF (b - a).
  Proof.
    intros Hi (y & Y1 & Y2). unfold norm_of. assert (Hs : s <> []) by (intros C; pose proof ent_lens as L; rewrite C in L; simpl in L; lia).
    destruct (rmax_of_spec s Hs) as [A1 A2]. destruct (rmin_of_spec s Hs) as [B1 B2]. exists (rmin_of s), (rmax_of s).
    assert (N : rmin_of s < rmax_of s).
    { pose proof (A2 y (proj2 (s_In y) Y1)). pose proof (B2 y (proj2 (s_In y) Y1)). assert (X : In (nth i v 0) s) by (apply s_In, nth_In, Hi). pose proof (A2 _ X). pose proof (B2 _ X).
      destruct (Rlt_dec (rmin_of s) (rmax_of s)); auto. exfalso. apply Y2. lra. }
    split; [split; [now apply s_In|intros z Hz; apply B2, s_In, Hz]|]. split; [split; [now apply s_In|intros z Hz; apply A2, s_In, Hz]|]. split; [exact N|].
    destruct (Req_EM_T _ 0); [lra|reflexivity].
  Qed.
  Lemma cd_end k : (k < n)%nat -> k = 0%nat \/ S k = n -> cd_at s k = EPInf.
  Proof.
    intros Hk [->|E]; unfold cd_at, dl_at, du_at, dist_at; rewrite ent_lens.
    - replace (0 <? n)%nat with true by (symmetry; now apply Nat.ltb_lt). cbn [esub eneg eadd fixnan]. destruct (1 <? n)%nat; reflexivity.
    - rewrite E, Nat.ltb_irrefl. replace (k <? n)%nat with true by (symmetry; now apply Nat.ltb_lt). destruct k as [|k]; reflexivity.
  Qed.
  Lemma dl_mid k : (0 < k < n)%nat -> dl_at s k = EF (nth k s 0 - nth (k - 1) s 0).
  Proof. intros H. unfold dl_at, dist_at. rewrite ent_lens. replace (k <? n)%nat with true by (symmetry; apply Nat.ltb_lt; lia). destruct k as [|k]; [lia|]. cbn. rewrite Nat.sub_0_r. reflexivity. Qed.
  Lemma du_mid k : (S k < n)%nat -> du_at s k = EF (nth (S k) s 0 - nth k s 0).
  Proof. intros H. unfold du_at. unfold dist_at. rewrite ent_lens. replace (S k <? n)%nat with true by (symmetry; apply Nat.ltb_lt; lia). reflexivity. Qed.
  Lemma mid_value k c : (0 < k)%nat -> (S k < n)%nat -> 0 < c ->
    let d := nth k s 0 - nth (k - 1) s 0 in let u := nth (S k) s 0 - nth k s 0 in
    let r := fixnan (ediv (emul (cd_at s k) (entropy_at s k)) (EF c)) in
    (d = 0 \/ u = 0 -> r = EF 0) /\ (0 < d -> 0 < u -> r = EF ((d + u) * bits (d / (d + u)) / c)).
  Proof.
    intros H0 H1 Hc d u r. unfold r, entropy_at. rewrite ent_lens. replace ((k =? 0) || (S k =? n))%nat with false by (symmetry; apply orb_false_iff; split; apply Nat.eqb_neq; lia).
    cbv zeta. assert (EC : cd_at s k = EF (d + u)) by (unfold cd_at; rewrite dl_mid, du_mid by lia; reflexivity). rewrite EC, dl_mid, du_mid by lia. fold d u. clear r.
    pose proof (s_mono (k - 1) k ltac:(lia)). pose proof (s_mono k (S k) ltac:(lia)). split.
    - intros Hz. destruct (Req_EM_T (d + u) 0) as [Z|Z].
      + assert (Ed : d = 0) by (unfold d, u in *; lra). assert (N : ediv (EF d) (EF (d + u)) = ENaN) by (rewrite Ed in *; unfold ediv; destruct (Req_EM_T (0 + u) 0); [|congruence]; unfold escale; destruct (Rlt_dec 0 0); [lra|reflexivity]).
        rewrite N. reflexivity.
      + rewrite !(ediv_fin _ (d + u)) by auto. assert (N : eadd (emul (EF (d / (d + u))) (elog2 (EF (d / (d + u))))) (emul (EF (u / (d + u))) (elog2 (EF (u / (d + u))))) = ENaN).
        { destruct Hz as [Hz|Hz]; rewrite Hz.
          - replace (0 / (0 + u)) with 0 by (unfold Rdiv; ring). rewrite plog0. reflexivity.
          - replace (0 / (d + 0)) with 0 by (unfold Rdiv; ring). rewrite plog0. apply eadd_nan. }
        rewrite N. cbn [eneg]. rewrite emul_nan. reflexivity.
    - intros Hd Hu. rewrite !(ediv_fin _ (d + u)) by lra.
      assert (P1 : 0 < d / (d + u)) by (apply Rdiv_lt_0_compat; lra). assert (P2 : 0 < u / (d + u)) by (apply Rdiv_lt_0_compat; lra).
      unfold elog2. destruct (Rlt_dec 0 (d / (d + u))); [|lra]. destruct (Rlt_dec 0 (u / (d + u))); [|lra]. cbn [emul eadd eneg]. rewrite ediv_fin by lra. cbn [fixnan]. f_equal.
      unfold bits. replace (1 - d / (d + u)) with (u / (d + u)) by (field; lra). reflexivity.
  Qed.
  Lemma s_sorted_pos i i' : (i < n)%nat -> (i' < n)%nat -> (index_of i' J < index_of i J)%nat -> nth i' v 0 <= nth (index_of i J - 1) s 0.
  Proof. intros Hi Hi' H. destruct (pos_of i Hi) as [P1 P2]. destruct (pos_of i' Hi') as [Q1 Q2]. rewrite <- Q2 at 1. rewrite <- s_nth by auto. apply s_mono. lia. Qed.
  Lemma s_sorted_pos' i i' : (i < n)%nat -> (i' < n)%nat -> (index_of i J < index_of i' J)%nat -> nth (S (index_of i J)) s 0 <= nth i' v 0.
  Proof. intros Hi Hi' H. destruct (pos_of i Hi) as [P1 P2]. destruct (pos_of i' Hi') as [Q1 Q2]. rewrite <- Q2 at 1. rewrite <- s_nth by auto. apply s_mono. lia. Qed.
  Lemma index_neq i i' : (i < n)%nat -> (i' < n)%nat -> index_of i J = index_of i' J -> i = i'.
  Proof. intros Hi Hi' H. destruct (pos_of i Hi) as [P1 P2]. destruct (pos_of i' Hi') as [Q1 Q2]. congruence. Qed.
  Lemma entry_ok asort i : asort v = J -> (i < n)%nat -> ce_entry v i (cej asort v i).
  Proof.
    intros EJ Hi. unfold cej. rewrite EJ. fold s. destruct (pos_of i Hi) as [P1 P2]. set (k := index_of i J) in *.
    assert (XK : nth k s 0 = nth i v 0) by (rewrite s_nth, P2; auto). split.
    - intros HC. rewrite (norm_const i Hi HC). destruct (emul (cd_at s k) (entropy_at s k)); reflexivity.
    - intros HN. destruct (norm_range i Hi HN) as (a & b & A & B & AB & ->). split.
      + intros HE. assert (K : k = 0%nat \/ S k = n) by (destruct HE as [HE|HE]; [left; now apply pos0|right; now apply posn]).
        rewrite (cd_end k P1 K). unfold entropy_at. rewrite ent_lens. replace ((k =? 0) || (S k =? n))%nat with true by (symmetry; apply orb_true_iff; destruct K; [left|right]; now apply Nat.eqb_eq).
        cbn [emul ediv]. destruct (Req_EM_T (b - a) 0); [lra|]. unfold escale. destruct (Rlt_dec 0 (b - a)); [reflexivity|lra].
      + intros H0 H1. assert (K0 : (0 < k)%nat) by (destruct (Nat.eq_dec k 0); [exfalso; apply H0, pos0; auto|lia]).
        assert (K1 : (S k < n)%nat) by (destruct (Nat.eq_dec (S k) n); [exfalso; apply H1, posn; auto|lia]).
        destruct (mid_value k (b - a) K0 K1 ltac:(lra)) as [V1 V2]. cbv zeta in V1, V2. split.
        * intros (i' & I1 & I2 & I3). apply V1. assert (N : index_of i' J <> k) by (intros C; apply I2, index_neq; auto).
          pose proof (s_mono (k - 1) k ltac:(lia)). pose proof (s_mono k (S k) ltac:(lia)).
          destruct (Nat.lt_ge_cases (index_of i' J) k) as [L|L]; [left; pose proof (s_sorted_pos i i' Hi I1 L)|right; pose proof (s_sorted_pos' i i' Hi I1 ltac:(fold k; lia))]; fold k in H3; lra.
        * intros HT. assert (NE : forall k', (k' < n)%nat -> k' <> k -> nth k' s 0 <> nth k s 0).
          { intros k' Hk' Hne E. apply HT. exists (nth k' J 0%nat). split; [apply J_lt, Hk'|]. split; [|rewrite <- s_nth by auto; lra]. intros C. apply Hne. unfold k. rewrite <- C. symmetry. apply index_of_nth; [apply ent_NDJ|rewrite ent_lenJ; auto]. }
          pose proof (NE (k - 1)%nat ltac:(lia) ltac:(lia)). pose proof (NE (S k) ltac:(lia) ltac:(lia)). pose proof (s_mono (k - 1) k ltac:(lia)). pose proof (s_mono k (S k) ltac:(lia)).
          exists (nth (k - 1) s 0), (nth (S k) s 0), a, b. rewrite <- XK.
          assert (NB : next_below v (nth k s 0) (nth (k - 1) s 0)).
          { split; [apply s_In, nth_In; rewrite ent_lens; lia|]. split; [lra|]. intros y Hy Hlt. apply s_In in Hy. apply (In_nth _ _ 0) in Hy. destruct Hy as (k' & K' & <-). rewrite ent_lens in K'. apply s_mono.
            destruct (Nat.lt_ge_cases k' k); [lia|]. pose proof (s_mono k k' ltac:(lia)). lra. }
          assert (NA : next_above v (nth k s 0) (nth (S k) s 0)).
          { split; [apply s_In, nth_In; rewrite ent_lens; lia|]. split; [lra|]. intros y Hy Hlt. apply s_In in Hy. apply (In_nth _ _ 0) in Hy. destruct Hy as (k' & K' & <-). rewrite ent_lens in K'. apply s_mono.
            destruct (Nat.le_gt_cases k' k); [pose proof (s_mono k' k ltac:(lia)); lra|lia]. }
          split; [exact NB|]. split; [exact NA|]. split; [exact A|]. split; [exact B|]. rewrite V2 by lra. f_equal.
          replace (nth k s 0 - nth (k - 1) s 0 + (nth (S k) s 0 - nth k s 0)) with (nth (S k) s 0 - nth (k - 1) s 0) by ring. reflexivity.
  Qed.
End Col.
