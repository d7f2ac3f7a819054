(** * C115: digits, rounding and reading back *)
From Coq Require Import Ascii String List Arith Bool ZArith QArith Qpower Qround Qabs Lia Lqa.
From Verif Require Import S_Display M_Display.
Import ListNotations.
Local Open Scope list_scope.
Local Open Scope Z_scope.

(** ** digits *)
Definition isd (d : Z) : Prop := 0 <= d < 10.
Lemma number_app ds es : number_of (ds ++ es) = number_of ds * 10 ^ Z.of_nat (List.length es) + number_of es.
Proof.
  unfold number_of. revert ds. induction es as [|e es IH] using rev_ind; intros ds; [rewrite app_nil_r; cbn; lia|].
  rewrite app_assoc, fold_left_app. cbn [fold_left]. rewrite IH, fold_left_app. cbn [fold_left]. rewrite app_length. cbn [List.length].
  replace (Z.of_nat (List.length es + 1)) with (Z.of_nat (List.length es) + 1) by lia. rewrite Z.pow_add_r by lia. lia.
Qed.
Lemma number_snoc ds d : number_of (ds ++ [d]) = 10 * number_of ds + d.
Proof. unfold number_of. now rewrite fold_left_app. Qed.
Lemma digits_one n : 0 <= n < 10 -> number_of [n] = n /\ Forall isd [n] /\ [n] <> [] /\ n < 10 ^ Z.of_nat (List.length [n]) /\
  (n = 0 /\ List.length [n] = 1%nat \/ 10 ^ (Z.of_nat (List.length [n]) - 1) <= n).
Proof.
  intros H. cbn. split; [destruct n; lia|]. split; [constructor; [exact H|constructor]|]. split; [discriminate|]. split; [lia|]. destruct (Z.eq_dec n 0); [left; auto|right; lia].
Qed.
Lemma digits_fuel_spec f : forall n, 0 <= n < 10 ^ (Z.of_nat f + 1) -> let l := digits_fuel f n in
  number_of l = n /\ Forall isd l /\ l <> [] /\ n < 10 ^ Z.of_nat (List.length l) /\ (n = 0 /\ List.length l = 1%nat \/ 10 ^ (Z.of_nat (List.length l) - 1) <= n).
Proof.
  induction f as [|f IH]; intros n Hn; cbn [digits_fuel].
  - apply digits_one. exact Hn.
  - destruct (Z.ltb_spec n 10) as [H|H]; [apply digits_one; lia|].
    { replace (Z.of_nat (S f) + 1) with (Z.of_nat f + 1 + 1) in Hn by lia. rewrite Z.pow_add_r in Hn by lia. change (10 ^ 1) with 10 in Hn.
      pose proof (Z.div_mod n 10 ltac:(lia)) as DM. pose proof (Z.mod_pos_bound n 10 ltac:(lia)) as MB.
      destruct (IH (n / 10)) as (E1 & E2 & E3 & E4 & E5); [split; [apply Z.div_pos; lia|apply Z.div_lt_upper_bound; lia]|]. cbv zeta in *.
      set (l := digits_fuel f (n / 10)) in *. rewrite number_snoc, app_length. cbn [List.length]. replace (Z.of_nat (List.length l + 1)) with (Z.of_nat (List.length l) + 1) by lia.
      rewrite E1. split; [lia|]. split; [apply Forall_app; split; [auto|constructor; [exact MB|constructor]]|]. split; [destruct l; discriminate|].
      rewrite Z.pow_add_r by lia. change (10 ^ 1) with 10. split; [nia|]. right. destruct E5 as [[E5 E6]|E5].
      * exfalso. assert (n / 10 >= 1) by (apply Z.le_ge, Z.div_le_lower_bound; lia). lia.
      * replace (Z.of_nat (List.length l) + 1 - 1) with (Z.of_nat (List.length l) - 1 + 1) by lia. assert (0 < Z.of_nat (List.length l)) by (destruct l; [congruence|cbn [List.length]; lia]).
        rewrite Z.pow_add_r by lia. change (10 ^ 1) with 10. nia. }
Qed.
Lemma digits_spec n : 0 <= n -> number_of (digits n) = n /\ Forall isd (digits n) /\ digits n <> [] /\ n < 10 ^ Z.of_nat (List.length (digits n)) /\
  (n = 0 /\ List.length (digits n) = 1%nat \/ 10 ^ (Z.of_nat (List.length (digits n)) - 1) <= n).
Proof.
  intros Hn. apply digits_fuel_spec. split; auto. rewrite Z2Nat.id by apply Z.log2_nonneg. destruct (Z.eq_dec n 0) as [->|H0]; [cbn; lia|].
  pose proof (Z.log2_spec n ltac:(lia)) as [_ H]. apply (Z.lt_le_trans _ _ _ H). rewrite <- Z.add_1_r. apply Z.pow_le_mono_l. pose proof (Z.log2_nonneg n). lia.
Qed.
Lemma digits_len n k : 0 <= n -> (1 <= k)%nat -> n < 10 ^ Z.of_nat k -> (List.length (digits n) <= k)%nat.
Proof.
  intros Hn Hk H. destruct (digits_spec n Hn) as (_ & _ & _ & _ & [[_ E]|E]); [lia|]. destruct (le_lt_dec (List.length (digits n)) k) as [|G]; auto.
  exfalso. assert (10 ^ Z.of_nat k <= 10 ^ (Z.of_nat (List.length (digits n)) - 1)) by (apply Z.pow_le_mono_r; lia). lia.
Qed.
Lemma digits_len_ge n k : 10 ^ Z.of_nat k <= n -> (k < List.length (digits n))%nat.
Proof.
  intros H. assert (0 < 10 ^ Z.of_nat k) by (apply Z.pow_pos_nonneg; lia). destruct (digits_spec n ltac:(lia)) as (_ & _ & _ & E & _).
  destruct (le_lt_dec (List.length (digits n)) k) as [G|]; auto. exfalso. assert (10 ^ Z.of_nat (List.length (digits n)) <= 10 ^ Z.of_nat k) by (apply Z.pow_le_mono_r; lia). lia.
Qed.
Lemma padded_spec k : forall n, 0 <= n -> List.length (padded k n) = k /\ Forall isd (padded k n) /\ number_of (padded k n) = n mod 10 ^ Z.of_nat k.
Proof.
  induction k as [|k IH]; intros n Hn; [cbn; repeat split; auto; now rewrite Z.mod_1_r|]. cbn [padded]. destruct (IH (n / 10)) as (E1 & E2 & E3); [apply Z.div_pos; lia|].
  pose proof (Z.mod_pos_bound n 10 ltac:(lia)) as MB. rewrite app_length, E1, number_snoc, E3. cbn [List.length]. split; [lia|]. split; [apply Forall_app; split; [auto|constructor; [exact MB|constructor]]|].
  replace (Z.of_nat (S k)) with (1 + Z.of_nat k) by lia. rewrite Z.pow_add_r by lia. change (10 ^ 1) with 10. assert (0 < 10 ^ Z.of_nat k) by (apply Z.pow_pos_nonneg; lia).
  rewrite Z.rem_mul_r by lia. lia.
Qed.
Lemma digit_chr d : isd d -> digit_of (chr d) = Some d.
Proof.
  intros [H1 H2]. unfold chr, digit_of. rewrite nat_ascii_embedding by lia. destruct ((48 <=? 48 + Z.to_nat d)%nat) eqn:E; [|apply Nat.leb_gt in E; lia].
  destruct ((48 + Z.to_nat d <=? 57)%nat) eqn:E'; [|apply Nat.leb_gt in E'; lia]. cbn [andb]. f_equal. lia.
Qed.
Definition no_digit (l : list ascii) : Prop := match l with [] => True | c :: _ => digit_of c = None end.
Lemma span_chr ds r : Forall isd ds -> no_digit r -> span (map chr ds ++ r) = (ds, r).
Proof.
  intros HD HR. induction HD as [|d ds Hd _ IH]; cbn [map app].
  - destruct r as [|c r]; cbn in *; auto. now rewrite HR.
  - cbn [span]. now rewrite (digit_chr d Hd), IH.
Qed.
Lemma chr_not d c : isd d -> digit_of c = None -> Ascii.eqb (chr d) c = false.
Proof. intros Hd Hc. destruct (Ascii.eqb_spec (chr d) c) as [E|]; auto. rewrite <- E, digit_chr in Hc by auto. discriminate. Qed.

(** ** rounding *)
Lemma round_even_spec q : (Qabs (inject_Z (round_even q) - q) <= 1 # 2)%Q.
Proof.
  unfold round_even. cbv zeta. pose proof (Qfloor_le q) as F1. pose proof (Qlt_floor q) as F2. rewrite inject_Z_plus in F2. change (inject_Z 1) with 1%Q in F2.
  set (f := Qfloor q) in *. destruct (Qcompare_spec (q - inject_Z f) (1 # 2)) as [E|E|E].
  - destruct (Z.even f); [|rewrite inject_Z_plus; change (inject_Z 1) with 1%Q]; apply Qabs_Qle_condition; split; lra.
  - apply Qabs_Qle_condition. split; lra.
  - rewrite inject_Z_plus. change (inject_Z 1) with 1%Q. apply Qabs_Qle_condition. split; lra.
Qed.
Lemma round_even_ge q z : (inject_Z z <= q)%Q -> z <= round_even q.
Proof.
  intros H. pose proof (Qfloor_resp_le _ _ H) as F. rewrite Qfloor_Z in F. unfold round_even. cbv zeta.
  destruct (q - inject_Z (Qfloor q) ?= 1 # 2)%Q; [destruct (Z.even (Qfloor q))|..]; lia.
Qed.
Lemma round_even_le q z : (q <= inject_Z z)%Q -> round_even q <= z.
Proof.
  intros H. pose proof (round_even_spec q) as S. apply Qabs_Qle_condition in S as [_ S]. destruct (Z_le_gt_dec (round_even q) z) as [|G]; auto. exfalso.
  assert (L : (inject_Z (z + 1) <= inject_Z (round_even q))%Q) by (rewrite <- Zle_Qle; lia). rewrite inject_Z_plus in L. change (inject_Z 1) with 1%Q in L. lra.
Qed.

(** ** powers of ten *)
Lemma pow10_pos k : (0 < pow10 k)%Q.
Proof. unfold pow10. apply Qpower_0_lt. reflexivity. Qed.
Lemma pow10_add a b : (pow10 (a + b) == pow10 a * pow10 b)%Q.
Proof. unfold pow10. apply Qpower_plus. discriminate. Qed.
Lemma pow10_Z k : 0 <= k -> (pow10 k == inject_Z (10 ^ k))%Q.
Proof. intros H. unfold pow10. rewrite Zpower_Qpower by auto. reflexivity. Qed.
Lemma pow10_S k : (pow10 (k + 1) == 10 * pow10 k)%Q.
Proof. rewrite pow10_add. change (pow10 1) with 10%Q. ring. Qed.
Lemma pow10_le a b : a <= b -> (pow10 a <= pow10 b)%Q.
Proof.
  intros H. replace b with (a + (b - a)) by lia. rewrite pow10_add. pose proof (pow10_pos a) as P. rewrite (pow10_Z (b - a)) by lia.
  assert (L : (1 <= inject_Z (10 ^ (b - a)))%Q) by (change 1%Q with (inject_Z 1); rewrite <- Zle_Qle; pose proof (Z.pow_pos_nonneg 10 (b - a)); lia).
  rewrite <- (Qmult_1_r (pow10 a)) at 1. apply Qmult_le_l; auto.
Qed.
Lemma pow10_lt_inv a b : (pow10 a < pow10 b)%Q -> a < b.
Proof. intros H. destruct (Z_lt_le_dec a b); auto. exfalso. pose proof (pow10_le b a ltac:(lia)). lra. Qed.
Lemma pow10_opp k : (pow10 k * pow10 (- k) == 1)%Q.
Proof. rewrite <- pow10_add. replace (k + - k) with 0 by lia. reflexivity. Qed.
Lemma neg_exp_spec f : forall a, (0 < a)%Q -> (a < 10)%Q -> (1 <= a * pow10 (Z.of_nat f))%Q -> let e := neg_exp f a in e <= 0 /\ (pow10 e <= a < pow10 (e + 1))%Q.
Proof.
  induction f as [|f IH]; intros a Ha H10 Hf; cbn [neg_exp]; cbv zeta.
  - change (pow10 (Z.of_nat 0)) with 1%Q in Hf. split; [lia|]. change (pow10 0) with 1%Q. change (pow10 (0 + 1)) with 10%Q. split; lra.
  - destruct (Qle_bool 1 a) eqn:E.
    + apply Qle_bool_iff in E. split; [lia|]. change (pow10 0) with 1%Q. change (pow10 (0 + 1)) with 10%Q. split; lra.
    + assert (L : (a < 1)%Q) by (apply Qnot_le_lt; intros K; apply Qle_bool_iff in K; congruence).
      replace (Z.of_nat (S f)) with (Z.of_nat f + 1) in Hf by lia. rewrite pow10_S in Hf. destruct (IH (a * 10)%Q) as [I1 [I2 I3]]; try lra. set (e := neg_exp f (a * 10)) in *. clearbody e.
      split; [lia|]. replace (e - 1 + 1) with e by lia. assert (K : (pow10 e == 10 * pow10 (e - 1))%Q) by (rewrite <- pow10_S; now replace (e - 1 + 1) with e by lia).
      rewrite pow10_S in I3. split; lra.
Qed.
Lemma exponent_spec a : (0 < a)%Q -> (pow10 (exponent a) <= a < pow10 (exponent a + 1))%Q.
Proof.
  intros Ha. unfold exponent. destruct (Qle_bool 1 a) eqn:E.
  - apply Qle_bool_iff in E. pose proof (Qfloor_le a) as F1. pose proof (Qlt_floor a) as F2. assert (F0 : 1 <= Qfloor a) by (change 1 with (Qfloor 1); now apply Qfloor_resp_le).
    destruct (digits_spec (Qfloor a) ltac:(lia)) as (_ & _ & _ & D1 & [[D2 _]|D2]); [lia|]. set (L := Z.of_nat (List.length (digits (Qfloor a)))) in *.
    assert (HL : 1 <= L) by (pose proof (digits_len_ge (Qfloor a) 0 ltac:(cbn; lia)); unfold L; lia).
    rewrite (pow10_Z (L - 1)) by lia. rewrite (pow10_Z (L - 1 + 1)) by lia. replace (L - 1 + 1) with L by lia. split.
    + apply Qle_trans with (inject_Z (Qfloor a)); auto. rewrite <- Zle_Qle. auto.
    + apply Qlt_le_trans with (inject_Z (Qfloor a + 1)); auto. rewrite <- Zle_Qle. lia.
  - assert (L : (a < 1)%Q) by (apply Qnot_le_lt; intros K; apply Qle_bool_iff in K; congruence). apply neg_exp_spec; try lra.
    set (k := List.length (digits (Z.pos (Qden a)))). destruct (digits_spec (Z.pos (Qden a)) ltac:(lia)) as (_ & _ & _ & D1 & _). fold k in D1. rewrite pow10_Z by lia.
    destruct a as [num den]. cbn [Qden] in *. unfold Qle, Qlt, Qmult, inject_Z in *. cbn [Qnum Qden] in *. nia.
Qed.
(** the mantissa and exponent shown *)
Lemma sci_spec k q : ~ (q == 0)%Q -> let '(n, e) := sci k q in
  10 ^ Z.of_nat k <= n < 10 ^ (Z.of_nat k + 1) /\ (Qabs (inject_Z n * pow10 (e - Z.of_nat k) - Qabs q) <= Qabs q * pow10 (- Z.of_nat k) * (1 # 2))%Q /\
  (exponent (Qabs q) <= e <= exponent (Qabs q) + 1) /\ (inject_Z n * pow10 (e - Z.of_nat k) < pow10 (e + 1))%Q /\ (pow10 e <= inject_Z n * pow10 (e - Z.of_nat k))%Q.
Proof.
  intros Hq. unfold sci. destruct (Qeq_bool q 0) eqn:E0; [apply Qeq_bool_iff in E0; tauto|]. set (a := Qabs q). assert (Ha : (0 < a)%Q).
  { pose proof (Qabs_nonneg q) as K. apply Qle_lteq in K as [K|K]; auto. exfalso. apply Hq. symmetry in K. unfold a in *. apply Qeq_sym in K. pose proof (Qle_Qabs q). pose proof (Qle_Qabs (- q)). rewrite Qabs_opp in *. lra. }
  pose proof (exponent_spec a Ha) as [X1 X2]. set (e := exponent a) in *. clearbody e. set (K := Z.of_nat k). assert (HK : 0 <= K) by lia.
  set (u := pow10 (K - e)). assert (Hu : (0 < u)%Q) by apply pow10_pos. set (x := (a * u)%Q).
  assert (E1 : (pow10 e * u == inject_Z (10 ^ K))%Q) by (unfold u; rewrite <- pow10_add; replace (e + (K - e)) with K by lia; now apply pow10_Z).
  assert (E2 : (pow10 (e + 1) * u == inject_Z (10 ^ (K + 1)))%Q) by (unfold u; rewrite <- pow10_add; replace (e + 1 + (K - e)) with (K + 1) by lia; apply pow10_Z; lia).
  assert (B1 : (inject_Z (10 ^ K) <= x)%Q) by (unfold x; rewrite <- E1; now apply Qmult_le_r).
  assert (B2 : (x < inject_Z (10 ^ (K + 1)))%Q) by (unfold x; rewrite <- E2; now apply Qmult_lt_r).
  pose proof (round_even_ge x _ B1) as R1. pose proof (round_even_le x _ (Qlt_le_weak _ _ B2)) as R2. pose proof (round_even_spec x) as R3. fold x.
  set (n := round_even x) in *. clearbody n.
  assert (U : (u * pow10 (e - K) == 1)%Q) by (unfold u; rewrite <- pow10_add; replace (K - e + (e - K)) with 0 by lia; reflexivity).
  set (u' := pow10 (e - K)) in *. assert (Hu' : (0 < u')%Q) by apply pow10_pos.
  assert (XA : (x * u' == a)%Q) by (unfold x; rewrite <- Qmult_assoc, U; ring).
  assert (EU : (u' == pow10 e * pow10 (- K))%Q) by (unfold u'; rewrite <- pow10_add; replace (e + - K) with (e - K) by lia; reflexivity).
  assert (ER : (Qabs (inject_Z n * u' - a) <= a * pow10 (- K) * (1 # 2))%Q).
  { assert (EQ : (inject_Z n * u' - a == (inject_Z n - x) * u')%Q) by (rewrite <- XA; ring). rewrite EQ, Qabs_Qmult, (Qabs_pos u') by lra.
    apply Qle_trans with ((1 # 2) * u')%Q; [apply Qmult_le_r; auto|]. rewrite EU. pose proof (pow10_pos (- K)) as PK.
    assert ((pow10 e * pow10 (- K) <= a * pow10 (- K))%Q) by (now apply Qmult_le_r). lra. }
  assert (P1 : 10 ^ (K + 1) = 10 * 10 ^ K) by (rewrite Z.pow_add_r by lia; change (10 ^ 1) with 10; lia). assert (P0 : 0 < 10 ^ K) by (apply Z.pow_pos_nonneg; lia).
  assert (Z1 : forall z, (pow10 z == inject_Z (10 ^ K) * pow10 (z - K))%Q) by (intros z; rewrite <- pow10_Z by lia; rewrite <- pow10_add; now replace (K + (z - K)) with z by lia).
  assert (Z2 : forall z, (pow10 (z + 1) == inject_Z (10 ^ (K + 1)) * pow10 (z - K))%Q) by (intros z; rewrite <- pow10_Z by lia; rewrite <- pow10_add; now replace (K + 1 + (z - K)) with (z + 1) by lia).
  destruct (Z.eqb_spec n (10 ^ (K + 1))) as [EN|EN].
  - split; [lia|]. split; [|split; [lia|]].
    + assert (EQ : (inject_Z (10 ^ K) * pow10 (e + 1 - K) == inject_Z n * u')%Q). { rewrite EN. rewrite <- Z1. now rewrite Z2. } rewrite EQ. exact ER.
    + rewrite <- Z1. split; [|apply Qle_refl]. rewrite (pow10_S (e + 1)). pose proof (pow10_pos (e + 1)). lra.
  - split; [lia|]. split; [exact ER|]. split; [lia|]. fold u'. rewrite (Z2 e), (Z1 e). fold u'. split; [apply Qmult_lt_r; auto; rewrite <- Zlt_Qlt; lia|apply Qmult_le_r; auto; rewrite <- Zle_Qle; lia].
Qed.
