(** * C104: Omni-Optimizer: mating selection and the reported optimum *)
From Coq Require Import List Arith Bool ZArith QArith Lia Lqa Permutation.
From Verif Require Import ListAux M_Norm Thm_Norm M_Crowding Thm_Default2 Thm_RMetric M_Omni Thm_Omni.
From Verif Require M_Default.
Import ListNotations.
Local Open Scope nat_scope.

(** ** Specification: the members of pairs *)
Definition members (ps : list (nat * nat)) : list nat := concat (map (fun pq => [fst pq; snd pq]) ps).
(** the pairs of one pass over the order [P] of the solutions: nobody occurs twice; the first member is the first solution of the order not used before; the second
    is a nearest one among those not used before *)
Definition pass_ok (Xn : list (list Q)) (P : list nat) (ps : list (nat * nat)) : Prop :=
  NoDup (members ps) /\ incl (members ps) P /\
  forall t p q, nth_error ps t = Some (p, q) ->
    (exists pre post, P = pre ++ p :: post /\ incl pre (members (firstn t ps))) /\
    forall r, In r P -> ~ In r (members (firstn t ps)) -> r <> p -> (sqd (nth q Xn []) (nth p Xn []) <= sqd (nth r Xn []) (nth p Xn []))%Q.

Lemma members_cons p q ps : members ((p, q) :: ps) = p :: q :: members ps. Proof. reflexivity. Qed.
Lemma drop_at_split {A} (d : A) k l : k < length l -> exists a b, l = a ++ nth k l d :: b /\ drop_at k l = a ++ b.
Proof.
  intros Hk. exists (firstn k l), (skipn (S k) l). split; [|reflexivity]. revert k Hk. induction l as [|x l IH]; intros k Hk; cbn in Hk; [lia|]. destruct k as [|k]; [reflexivity|]. cbn [firstn skipn nth app]. f_equal. apply IH. lia.
Qed.
Lemma nb_pass_ok fuel : forall Xn rem room, NoDup rem -> length rem <= fuel -> length (nb_pass fuel Xn rem room) = Nat.min room (length rem / 2) /\ pass_ok Xn rem (nb_pass fuel Xn rem room).
Proof.
  assert (NIL : forall Xn rem, pass_ok Xn rem []) by (intros Xn rem; split; [constructor|split; [intros x []|intros [|t] p q H; discriminate]]).
  induction fuel as [|fuel IH]; intros Xn rem room HN HF.
  { destruct rem; [|cbn in HF; lia]. cbn [nb_pass length]. split; [rewrite Nat.min_0_r; reflexivity|apply NIL]. }
  destruct room as [|room]; [cbn [nb_pass]; split; [reflexivity|apply NIL]|].
  destruct rem as [|p [|r0 rest]]; [split; [reflexivity|apply NIL]|split; [reflexivity|apply NIL]|]. cbn [nb_pass]. cbv zeta.
  set (L := r0 :: rest) in *. set (key := map (fun r => sqd (nth r Xn []) (nth p Xn [])) L).
  assert (KN : key <> []) by (unfold key, L; discriminate). destruct (argminQ_spec key KN) as [K1 K2]. assert (LK : length key = length L) by apply map_length. set (nn := argminQ key) in *.
  assert (HNN : nn < length L) by (rewrite <- LK; exact K1).
  destruct (drop_at_split 0 nn L HNN) as (a & b & EL & ED). set (q := nth nn L 0) in *. rewrite ED.
  assert (HL : length L = S (length (a ++ b))) by (pose proof (f_equal (@length nat) EL) as HL0; rewrite app_length in HL0; cbn [length] in HL0; rewrite app_length; lia).
  apply NoDup_cons_iff in HN as [NP NL]. assert (NL' : NoDup (q :: a ++ b)) by (eapply Permutation_NoDup; [symmetry; apply Permutation_middle|rewrite <- EL; exact NL]). apply NoDup_cons_iff in NL' as [NQ NAB].
  destruct (IH Xn (a ++ b) room NAB ltac:(cbn [length] in HF; lia)) as [L1 (P1 & P2 & P3)]. set (ps := nb_pass fuel Xn (a ++ b) room) in *.
  assert (INL : forall x, In x L <-> x = q \/ In x (a ++ b)) by (intros x; rewrite EL, !in_app_iff; cbn; intuition congruence).
  split.
  - cbn [length]. rewrite L1. replace (S (length L) / 2) with (S (length (a ++ b) / 2)); [lia|]. rewrite HL. change (S (S (length (a ++ b)))) with (2 + length (a ++ b)). replace (2 + length (a ++ b)) with (length (a ++ b) + 1 * 2) by lia. rewrite Nat.div_add by lia. lia.
  - split; [|split].
    + rewrite members_cons. apply NoDup_cons; [|apply NoDup_cons; [intros K; apply NQ, P2, K|exact P1]].
      intros [EQ|K]; [apply NP, INL; left; congruence|]. apply NP, INL. right. apply P2, K.
    + rewrite members_cons. intros x [<-|[<-|K]]; [now left|right; apply INL; auto|right; apply INL; right; apply P2, K].
    + intros [|t] p' q' E.
      * cbn in E. injection E as <- <-. split; [exists [], L; split; auto; intros x []|]. intros r [<-|Hr] _ Hne; [congruence|].
        destruct (In_nth _ _ 0 Hr) as (j & Hj & <-). rewrite Forall_forall in K2.
        assert (KJ : forall i, i < length L -> nth i key 0%Q = sqd (nth (nth i L 0) Xn []) (nth p Xn [])).
        { intros i Hi. unfold key. rewrite (nth_indep _ 0%Q (sqd (nth 0 Xn []) (nth p Xn []))) by now rewrite map_length. apply (map_nth (fun r => sqd (nth r Xn []) (nth p Xn []))). }
        assert (Hjk : j < length key) by (rewrite LK; exact Hj). specialize (K2 (nth j key 0%Q) (nth_In key 0%Q Hjk)). rewrite !KJ in K2 by assumption. exact K2.
      * cbn [nth_error] in E. destruct (P3 t p' q' E) as [(pre & post & E1 & E2) P4]. cbn [firstn]. rewrite members_cons. split.
        { destruct (app_eq_app _ _ _ _ E1) as (l & [[A1 A2]|[A1 A2]]).
          - destruct l as [|x l]; cbn in A2.
            + rewrite app_nil_r in A1. subst pre. exists (p :: a ++ [q]), post. split; [rewrite EL, <- A2; cbn; now rewrite <- app_assoc|]. intros y [<-|Hy]; [now left|]. apply in_app_iff in Hy as [Hy|[<-|[]]]; [right; right; apply E2, Hy|right; now left].
            + injection A2 as -> A2. exists (p :: pre), (l ++ q :: b). split; [rewrite EL, A1; cbn; now rewrite <- app_assoc|]. intros y [<-|Hy]; [now left|right; right; apply E2, Hy].
          - exists (p :: a ++ q :: l), post. split; [rewrite EL, A2; cbn; now rewrite <- app_assoc|]. intros y [<-|Hy]; [now left|]. apply in_app_iff in Hy as [Hy|[<-|Hy]]; [right; right; apply E2; rewrite A1; apply in_app_iff; auto|right; now left|right; right; apply E2; rewrite A1; apply in_app_iff; auto]. }
        intros r Hr Hnr Hne. apply P4; auto; [|intros K; apply Hnr; right; now right]. destruct Hr as [<-|Hr]; [exfalso; apply Hnr; now left|]. apply INL in Hr as [->|Hr]; auto. exfalso. apply Hnr. right. now left.
Qed.

Lemma nb_pairs_len n Xn perms : Forall (fun P => Permutation P (seq 0 n)) perms -> forall W,
  (W <= n / 2 * length perms -> exists ps, nb_pairs Xn perms W = Some ps /\ length ps = W /\ forall b, b < length perms -> pass_ok Xn (nth b perms []) (firstn (n / 2) (skipn (b * (n / 2)) ps))) /\
  (n / 2 * length perms < W -> nb_pairs Xn perms W = None).
Proof.
  intros HP. induction perms as [|P perms IH]; intros W.
  - cbn [length]. rewrite Nat.mul_0_r. split; [|destruct W; [lia|reflexivity]]. intros H. assert (W = 0) by lia. subst. exists []. split; [reflexivity|]. split; [reflexivity|]. cbn. lia.
  - pose proof (Forall_inv HP) as HP1. specialize (IH (Forall_inv_tail HP)). cbn [length]. set (h := n / 2) in *. rewrite Nat.mul_succ_r.
    pose proof (nb_pass_ok (length P) Xn P W (perm_seq_NoDup _ _ HP1) (le_n _)) as [LP OP]. rewrite (perm_seq_length _ _ HP1) in LP at 2. fold h in LP. set (pass := nb_pass (length P) Xn P W) in *.
    assert (NIL : forall P0, pass_ok Xn P0 []) by (intros P0; split; [constructor|split; [intros x []|intros [|t] p q H; discriminate]]).
    destruct W as [|W].
    { split; [|lia]. intros _. exists []. split; [reflexivity|]. split; [reflexivity|]. intros b Hb. rewrite skipn_nil, firstn_nil. apply NIL. }
    cbn [nb_pairs]. fold pass. destruct (IH (S W - length pass)) as [I1 I2]. split; intros HW.
    + destruct I1 as (ps & E & L & OK); [lia|]. rewrite E. exists (pass ++ ps). split; [reflexivity|]. split; [rewrite app_length; lia|].
      intros [|b] Hb; cbn [nth].
      * cbn [Nat.mul skipn]. destruct (Nat.le_gt_cases h (S W)) as [C|C].
        -- assert (length pass = h) by lia. rewrite <- H, firstn_app, Nat.sub_diag, firstn_all, firstn_O, app_nil_r. exact OP.
        -- assert (length pass = S W) by lia. assert (ps = []) by (apply length_zero_iff_nil; lia). subst ps. rewrite app_nil_r, firstn_all2 by lia. exact OP.
      * destruct (Nat.le_gt_cases h (S W)) as [C|C].
        -- assert (length pass = h) by lia. cbn [Nat.mul]. rewrite skipn_app, skipn_all2 by lia. replace (h + b * h - length pass) with (b * h) by lia. apply OK. cbn in Hb. lia.
        -- assert (length pass = S W) by lia. assert (ps = []) by (apply length_zero_iff_nil; lia). subst ps. rewrite app_nil_r, skipn_all2 by (cbn [Nat.mul]; lia). rewrite firstn_nil. apply NIL.
    + rewrite I2; [reflexivity|]. lia.
Qed.

(** C104: mating selection: after enough passes (each gives n / 2 pairs) the requested number of pairs is there; within a pass no solution competes twice, its first member is the next unused solution
    of the random order and its opponent a nearest one among the unused *)
Theorem C104_pairs : forall n Xn perms W, Forall (fun P => Permutation P (seq 0 n)) perms -> W <= n / 2 * length perms ->
  exists ps, nb_pairs Xn perms W = Some ps /\ length ps = W /\
  forall b, b < length perms -> pass_ok Xn (nth b perms []) (firstn (n / 2) (skipn (b * (n / 2)) ps)).
Proof. intros n Xn perms W HP HW. now apply nb_pairs_len. Qed.
Print Assumptions C104_pairs.
(** C104: every pair joins two different solutions of the population *)
Theorem C104_pairs_distinct : forall n Xn perms W ps, Forall (fun P => Permutation P (seq 0 n)) perms -> nb_pairs Xn perms W = Some ps -> forall p q, In (p, q) ps -> p <> q /\ p < n /\ q < n.
Proof.
  intros n Xn perms W ps HP E p q Hpq. assert (HW : W <= n / 2 * length perms).
  { destruct (Nat.le_gt_cases W (n / 2 * length perms)) as [C|C]; auto. destruct (nb_pairs_len n Xn perms HP W) as [_ N]. rewrite (N C) in E. discriminate. }
  destruct (C104_pairs n Xn perms W HP HW) as (ps' & E' & L & OK). assert (ps' = ps) by congruence. subst ps'. destruct (In_nth _ _ (0, 0) Hpq) as (t & Ht & Et).
  assert (H0 : n / 2 <> 0) by (intros Z; rewrite Z in HW; cbn in HW; lia). pose proof (Nat.div_mod t (n / 2) H0) as DM. pose proof (Nat.mod_upper_bound t (n / 2) H0) as MU.
  set (b := t / (n / 2)) in *. set (r := t mod (n / 2)) in *. assert (Hb : b < length perms).
  { destruct (Nat.lt_ge_cases b (length perms)) as [C|C]; auto. exfalso. assert (n / 2 * length perms <= n / 2 * b) by (apply Nat.mul_le_mono_l; auto). lia. }
  destruct (OK b Hb) as (N1 & N2 & _). set (blk := firstn (n / 2) (skipn (b * (n / 2)) ps)) in *.
  assert (IB : In (p, q) blk).
  { unfold blk. rewrite <- Et. replace t with (b * (n / 2) + r) by lia. assert (NS : nth r (skipn (b * (n / 2)) ps) (0, 0) = nth (b * (n / 2) + r) ps (0, 0)) by (apply P_Perm.nth_skipn).
    rewrite <- NS. rewrite <- (firstn_skipn (n / 2) (skipn (b * (n / 2)) ps)) at 1. rewrite app_nth1; [apply nth_In|]; rewrite firstn_length, skipn_length; lia. }
  apply in_split in IB as (l1 & l2 & EB). rewrite EB in N1, N2. unfold members in N1, N2. rewrite map_app, concat_app in N1, N2. cbn [map concat fst snd app] in N1, N2.
  assert (PN : forall x, In x [p; q] -> x < n).
  { intros x Hx. pose proof (Forall_forall (fun P => Permutation P (seq 0 n)) perms) as FF. apply (perm_seq_In _ _ x (proj1 FF HP _ (nth_In _ [] Hb))). apply N2. apply in_app_iff. right. cbn in Hx |- *. tauto. }
  split; [|split; apply PN; cbn; auto]. intros ->. apply NoDup_app_iff in N1 as (_ & N1 & _). apply NoDup_cons_iff in N1 as [N1 _]. apply N1. now left.
Qed.
Print Assumptions C104_pairs_distinct.
(** C104: with fewer than two solutions it never finds an opponent: however many passes, pairs are missing (the loop does not end) *)
Theorem C104_single_refuted : forall n Xn perms W, n < 2 -> Forall (fun P => Permutation P (seq 0 n)) perms -> 0 < W -> nb_pairs Xn perms W = None.
Proof. intros n Xn perms W Hn HP HW. apply (nb_pairs_len n Xn perms HP W). replace (n / 2) with 0; [cbn; lia|]. symmetry. apply Nat.div_small. lia. Qed.
Print Assumptions C104_single_refuted.
(** C104: distances are measured in variables scaled to [0, 1] over the population; a constant variable does not count *)
Theorem C104_normalised : forall m X i j, X <> [] -> (forall r, In r X -> length r = m) -> i < length X -> j < m -> exists lo hi, col_least X j lo /\ col_greatest X j hi /\
  ((lo == hi)%Q -> (val (normalised X) i j == 0)%Q) /\ (~ (lo == hi)%Q -> (val (normalised X) i j == (val X i j - lo) / (hi - lo))%Q).
Proof.
  intros m X i j HX HL Hi Hj. destruct (col_min_spec m X HX HL) as [L1 C1]. destruct (col_max_spec m X HX HL) as [L2 C2]. exists (nth j (M_Default.col_min X) 0%Q), (nth j (M_Default.col_max X) 0%Q).
  split; auto. split; auto. set (lo := nth j (M_Default.col_min X) 0%Q). set (hi := nth j (M_Default.col_max X) 0%Q).
  assert (LR : length (nth i X []) = m) by (apply HL, nth_In; auto).
  set (norm := map (fun d => if Qeq_bool d 0 then 1%Q else d) (map2 Qminus (M_Default.col_max X) (M_Default.col_min X))).
  assert (LN : length norm = m) by (unfold norm; rewrite map_length, map2_len; lia).
  assert (EV : val (normalised X) i j = ((val X i j - lo) / nth j norm 0)%Q).
  { unfold val, normalised. fold norm. set (f := fun x => map2 Qdiv (map2 Qminus x (M_Default.col_min X)) norm). rewrite (nth_indep _ [] (f [])) by now rewrite map_length. rewrite (map_nth f). unfold f.
    rewrite (map2_nth Qdiv 0%Q 0%Q) by (rewrite map2_len; lia). rewrite (map2_nth Qminus 0%Q 0%Q) by lia. reflexivity. }
  assert (EN : nth j norm 0%Q = if Qeq_bool (hi - lo) 0 then 1%Q else (hi - lo)%Q).
  { unfold norm. set (g := fun d => if Qeq_bool d 0 then 1%Q else d). rewrite (nth_indep _ 0%Q (g 0%Q)) by (rewrite map_length, map2_len; lia). rewrite (map_nth g). rewrite (map2_nth Qminus 0%Q 0%Q) by lia. reflexivity. }
  rewrite EV, EN. split.
  - intros E. assert (Z : Qeq_bool (hi - lo) 0 = true) by (apply Qeq_bool_iff; lra). rewrite Z. destruct (C1 j Hj) as [_ A]. destruct (C2 j Hj) as [_ B]. specialize (A _ (nth_In X [] Hi)). specialize (B _ (nth_In X [] Hi)). fold lo in A. fold hi in B. unfold val. assert (Y : (nth j (nth i X []) 0 - lo == 0)%Q) by lra. rewrite Y. reflexivity.
  - intros NE. destruct (Qeq_bool (hi - lo) 0) eqn:Z; [apply Qeq_bool_iff in Z; exfalso; apply NE; lra|reflexivity].
Qed.
Print Assumptions C104_normalised.
Example C104_pairs_ex : nb_pairs (normalised [[0]; [10]; [1]; [9]]%Q) [[0; 1; 2; 3]; [3; 2; 1; 0]] 3 = Some [(0, 2); (1, 3); (3, 1)].
Proof. vm_compute. reflexivity. Qed.

(** C104: the reported optimum: the solutions of rank 0 if something is feasible, otherwise the first of the least violated *)
Theorem C104_optimum : forall feas cv rank,
  ((exists i, i < length feas /\ nth i feas false = true) -> forall i, In i (omni_opt feas cv rank) <-> nth i rank None = Some 0) /\
  ((forall i, i < length feas -> nth i feas false = false) -> cv <> [] -> exists i, omni_opt feas cv rank = [i] /\ i < length cv /\
     (forall j, j < length cv -> (nth i cv 0 <= nth j cv 0)%Q) /\ forall j, j < i -> (nth i cv 0 < nth j cv 0)%Q).
Proof.
  intros feas cv rank. unfold omni_opt. split.
  - intros (i0 & H0 & E0). assert (E : existsb (fun b => b) feas = true) by (apply existsb_exists; exists true; split; auto; rewrite <- E0; now apply nth_In). rewrite E. intros i. rewrite In_where.
    split; [intros [_ H]; destruct (nth i rank None) as [[|r]|]; congruence|]. intros H. split; [|now rewrite H]. destruct (Nat.lt_ge_cases i (length rank)) as [C|C]; auto. rewrite nth_overflow in H by auto. discriminate.
  - intros HN HC. assert (E : existsb (fun b => b) feas = false).
    { apply not_true_is_false. intros K. apply existsb_exists in K as (x & Hx & ->). destruct (In_nth _ _ false Hx) as (i & Hi & Ei). rewrite HN in Ei by auto. discriminate. }
    rewrite E. destruct (argminQ_spec cv HC) as [A1 A2]. exists (argminQ cv). split; auto. split; auto. split; [intros j Hj; rewrite Forall_forall in A2; apply A2, nth_In, Hj|]. intros j Hj. apply argminQ_first; auto.
Qed.
Print Assumptions C104_optimum.
