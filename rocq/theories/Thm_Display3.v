(** * C115: floats *)
From Coq Require Import Ascii String List Arith Bool ZArith QArith Qpower Qround Qabs Lia Lqa.
From Verif Require Import S_Display M_Display Thm_Display Thm_Display2.
Import ListNotations.
Local Open Scope list_scope.
Local Open Scope Z_scope.

Lemma number_zero ds : number_of (0 :: ds) = number_of ds.
Proof. reflexivity. Qed.
(** reading an exponent of digits [ds] *)
Lemma read_exp_digits (neg : bool) ds : ds <> [] -> Forall isd ds -> read_exp ((if neg then str "E-" else str "E+") ++ map chr ds) = Some (if neg then - number_of ds else number_of ds).
Proof.
  intros HN HD. pose proof (span_chr ds [] HD Logic.I) as SP. rewrite app_nil_r in SP. destruct ds as [|d ds]; [congruence|].
  destruct neg; cbn [app str list_ascii_of_string]; unfold read_exp; change (Ascii.eqb "E" "E") with true; cbv iota; rewrite SP; reflexivity.
Qed.
Definition exp_digits (e : Z) : list Z := (if Z.abs e <? 10 then [0] else []) ++ digits (Z.abs e).
Lemma fmt_exp_eq e : fmt_exp e = (if e <? 0 then str "E-" else str "E+") ++ map chr (exp_digits e).
Proof. unfold fmt_exp, exp_digits, dec. destruct (Z.abs e <? 10); reflexivity. Qed.
Lemma exp_digits_spec e : exp_digits e <> [] /\ Forall isd (exp_digits e) /\ number_of (exp_digits e) = Z.abs e.
Proof.
  destruct (digits_spec (Z.abs e) ltac:(lia)) as (D1 & D2 & D3 & _). unfold exp_digits. destruct (Z.abs e <? 10); cbn [app].
  - split; [discriminate|]. split; [constructor; [split; lia|auto]|]. now rewrite number_zero.
  - auto.
Qed.
Lemma read_exp_fmt e : read_exp (fmt_exp e) = Some e.
Proof.
  destruct (exp_digits_spec e) as (E1 & E2 & E3). rewrite fmt_exp_eq, read_exp_digits by auto. rewrite E3. f_equal. destruct (Z.ltb_spec e 0); lia.
Qed.
Lemma exp_len2 e : -99 <= e <= 99 -> List.length (fmt_exp e) = 4%nat.
Proof.
  intros H. rewrite fmt_exp_eq, app_length, map_length. unfold exp_digits. rewrite app_length.
  assert (L : List.length (if e <? 0 then str "E-" else str "E+") = 2%nat) by (destruct (e <? 0); reflexivity). rewrite L. destruct (Z.ltb_spec (Z.abs e) 10); cbn [List.length].
  - pose proof (digits_len (Z.abs e) 1 ltac:(lia) ltac:(lia) ltac:(cbn; lia)). destruct (digits_spec (Z.abs e) ltac:(lia)) as (_ & _ & N & _). destruct (digits (Z.abs e)); [congruence|cbn [List.length] in *; lia].
  - pose proof (digits_len (Z.abs e) 2 ltac:(lia) ltac:(lia) ltac:(cbn; lia)). pose proof (digits_len_ge (Z.abs e) 1 ltac:(cbn; lia)). lia.
Qed.
Lemma exp_len3 e : 100 <= Z.abs e <= 999 -> List.length (exp_digits e) = 3%nat.
Proof.
  intros H. unfold exp_digits. destruct (Z.ltb_spec (Z.abs e) 10); [lia|]. cbn [app].
  pose proof (digits_len (Z.abs e) 3 ltac:(lia) ltac:(lia) ltac:(cbn; lia)). pose proof (digits_len_ge (Z.abs e) 2 ltac:(cbn; lia)). lia.
Qed.
Lemma fmt_exp_len e : List.length (fmt_exp e) = (2 + List.length (exp_digits e))%nat.
Proof. rewrite fmt_exp_eq, app_length, map_length. destruct (e <? 0); reflexivity. Qed.
Lemma point_len k (t : text) : List.length t = k -> (List.length (point k t) = match k with O => 0 | _ => k + 1 end)%nat.
Proof. intros H. destruct k; cbn [point]; auto. rewrite app_length, H. cbn. lia. Qed.
(** the mantissa *)
Lemma mantissa k n : 0 <= n -> number_of (digits (n / 10 ^ Z.of_nat k) ++ padded k n) = n.
Proof.
  intros Hn. assert (P : 0 < 10 ^ Z.of_nat k) by (apply Z.pow_pos_nonneg; lia). destruct (padded_spec k n Hn) as (P1 & P2 & P3).
  destruct (digits_spec (n / 10 ^ Z.of_nat k)) as (D1 & _); [apply Z.div_pos; lia|]. rewrite number_app, D1, P1, P3. pose proof (Z.div_mod n (10 ^ Z.of_nat k) ltac:(lia)). lia.
Qed.
Lemma read_body k n r e : 0 <= n -> no_digit r -> (forall c r', r = c :: r' -> Ascii.eqb c "." = false) -> read_exp r = Some e ->
  read_unsigned (dec (n / 10 ^ Z.of_nat k) ++ point k (map chr (padded k n)) ++ r) = Some (inject_Z n * pow10 (e - Z.of_nat k))%Q.
Proof.
  intros Hn HR HD HE. assert (P : 0 < 10 ^ Z.of_nat k) by (apply Z.pow_pos_nonneg; lia). destruct (padded_spec k n Hn) as (P1 & P2 & P3).
  destruct (digits_spec (n / 10 ^ Z.of_nat k)) as (D1 & D2 & D3 & _); [apply Z.div_pos; lia|]. unfold dec. rewrite (read_number _ k _ r e) by auto. now rewrite mantissa.
Qed.
Lemma exp_head e : no_digit (fmt_exp e) /\ forall c r', fmt_exp e = c :: r' -> Ascii.eqb c "." = false.
Proof. rewrite fmt_exp_eq. destruct (e <? 0); cbn; (split; [reflexivity|]); intros c r' [= <- _]; reflexivity. Qed.
Definition signed (q v : Q) : Q := if Qle_bool 0 q then v else Qopp v.
Lemma read_signed q t w v : (exists d r, t = chr d :: r /\ isd d) -> read_unsigned t = Some v -> read (rjust w ((if Qle_bool 0 q then [] else str "-") ++ t)) = Some (signed q v).
Proof. intros H E. rewrite rjust_signed, read_sign by auto. rewrite E. unfold signed. now destruct (Qle_bool 0 q). Qed.
Lemma signed_err q v : (Qabs (signed q v - q) == Qabs (v - Qabs q))%Q.
Proof.
  unfold signed. destruct (Qle_bool 0 q) eqn:E.
  - apply Qle_bool_iff in E. now rewrite (Qabs_pos q) by auto.
  - assert (q < 0)%Q by (apply Qnot_le_lt; intros K; apply Qle_bool_iff in K; congruence). rewrite (Qabs_neg q) by lra. rewrite <- Qabs_opp. apply Qabs_wd. lra.
Qed.
Lemma sign_len q : (List.length (if Qle_bool 0 q then [] else str "-") = if Qle_bool 0 q then 0 else 1)%nat.
Proof. now destruct (Qle_bool 0 q). Qed.
Lemma expo_bounds a x y : (pow10 x <= a)%Q -> (a < pow10 y)%Q -> x <= exponent a < y.
Proof.
  intros H1 H2. pose proof (pow10_pos x). pose proof (exponent_spec a ltac:(lra)) as [E1 E2]. split.
  - assert (x < exponent a + 1) by (apply pow10_lt_inv; lra). lia.
  - apply pow10_lt_inv. lra.
Qed.
Definition fixed_point (q : Q) : Prop := (1 # 100000 <= q < 10)%Q.
(** C115: a float is shown rounded to width - 3 places after the point if 0.00001 <= q < 10, otherwise to width - 6 significant digits *)
Theorem C115_float : forall q w, (7 <= w)%nat -> (q == 0 \/ pow10 (-99) <= Qabs q < pow10 99 \/ pow10 (-999) <= q < pow10 999)%Q ->
  exists t v, format_text (VFloat q) w true = Some t /\ List.length t = w /\ read t = Some v /\
    (fixed_point q -> (Qabs (v - q) <= pow10 (- Z.of_nat (w - 3)) * (1 # 2))%Q) /\ (~ fixed_point q -> (Qabs (v - q) <= Qabs q * pow10 (- Z.of_nat (w - 7)) * (1 # 2))%Q).
Proof.
  intros q w Hw HQ. unfold format_text, number_to_text. rewrite (proj2 (Nat.leb_le 7 w)) by lia. rewrite (proj2 (Nat.leb_le 3 w)) by lia.
  assert (EF : (if Qle_bool 10 q || negb (Qle_bool 1 (q * 100000)) then ~ fixed_point q else fixed_point q)%bool).
  { unfold fixed_point. destruct (Qle_bool 10 q) eqn:E1; cbn [orb]; [apply Qle_bool_iff in E1; lra|].
    assert (q < 10)%Q by (apply Qnot_le_lt; intros K; apply Qle_bool_iff in K; congruence). destruct (Qle_bool 1 (q * 100000)) eqn:E2; cbn [negb].
    - apply Qle_bool_iff in E2. split; lra.
    - assert (q * 100000 < 1)%Q by (apply Qnot_le_lt; intros K; apply Qle_bool_iff in K; congruence). lra. }
  destruct (Qle_bool 10 q || negb (Qle_bool 1 (q * 100000)))%bool.
  - set (k := (w - 7)%nat). unfold fmt_E.
    assert (SC : let '(n, e) := sci k q in 0 <= n < 10 ^ (Z.of_nat k + 1) /\ (Qabs (inject_Z n * pow10 (e - Z.of_nat k) - Qabs q) <= Qabs q * pow10 (- Z.of_nat k) * (1 # 2))%Q /\
            (-99 <= e <= 99 \/ Qle_bool 0 q = true /\ -999 <= e <= 999)).
    { destruct (Qeq_dec q 0) as [Z0|Z0].
      - unfold sci. rewrite (proj2 (Qeq_bool_iff q 0) Z0). split; [split; [lia|apply Z.pow_pos_nonneg; lia]|]. split; [|lia]. rewrite Z0. change (Qabs 0) with 0%Q.
        assert (EQ : (inject_Z 0 * pow10 (0 - Z.of_nat k) - 0 == 0)%Q) by (change (inject_Z 0) with 0%Q; ring). rewrite EQ. change (Qabs 0) with 0%Q. rewrite Qmult_0_l. lra.
      - pose proof (sci_spec k q Z0) as S. destruct (sci k q) as [n e]. destruct S as (S1 & S2 & S3 & _). pose proof (Z.pow_pos_nonneg 10 (Z.of_nat k)). split; [lia|]. split; [exact S2|].
        destruct HQ as [HQ|[[H1 H2]|[H1 H2]]]; [tauto| |].
        + left. pose proof (expo_bounds _ _ _ H1 H2). lia.
        + right. pose proof (pow10_pos (-999)). assert (EA : (Qabs q == q)%Q) by (apply Qabs_pos; lra). pose proof (expo_bounds (Qabs q) (-999) 999 ltac:(lra) ltac:(lra)). split; [apply Qle_bool_iff; lra|lia]. }
    destruct (sci k q) as [n e]. destruct SC as (S1 & S2 & S3). assert (P : 0 < 10 ^ Z.of_nat k) by (apply Z.pow_pos_nonneg; lia).
    assert (HQ0 : 0 <= n / 10 ^ Z.of_nat k) by (apply Z.div_pos; lia).
    set (body := dec (n / 10 ^ Z.of_nat k) ++ point k (map chr (padded k n)) ++ fmt_exp e).
    assert (LD : List.length (dec (n / 10 ^ Z.of_nat k)) = 1%nat).
    { unfold dec. rewrite map_length. assert (n / 10 ^ Z.of_nat k < 10) by (apply Z.div_lt_upper_bound; [lia|]; rewrite Z.pow_add_r in S1 by lia; change (10 ^ 1) with 10 in S1; lia).
      pose proof (digits_len (n / 10 ^ Z.of_nat k) 1 HQ0 ltac:(lia) ltac:(cbn; lia)). destruct (digits_spec (n / 10 ^ Z.of_nat k) HQ0) as (_ & _ & N & _). destruct (digits _); [congruence|cbn [List.length] in *; lia]. }
    assert (LP : (List.length (point k (map chr (padded k n))) <= k + 1)%nat) by (rewrite (point_len k) by (rewrite map_length; now apply padded_spec); destruct k; lia).
    assert (LB : (List.length ((if Qle_bool 0 q then [] else str "-") ++ body) <= w)%nat).
    { rewrite app_length, sign_len. unfold body. rewrite !app_length, LD. destruct S3 as [S3|[S3 S4]].
      - rewrite exp_len2 by auto. destruct (Qle_bool 0 q); unfold k in *; lia.
      - rewrite S3. destruct (Z_le_gt_dec (Z.abs e) 99); [rewrite exp_len2 by lia|rewrite fmt_exp_len, exp_len3 by lia]; unfold k in *; lia. }
    destruct (Nat.ltb_spec w (List.length ((if Qle_bool 0 q then [] else str "-") ++ body))) as [L|_]; [lia|]. cbn [andb].
    eexists _, _. split; [reflexivity|]. split; [now apply rjust_len|]. split.
    { apply read_signed; [apply dec_head; auto|]. apply read_body; [lia|apply exp_head|apply exp_head|apply read_exp_fmt]. }
    split; [tauto|]. intros _. rewrite signed_err. exact S2.
  - set (k := (w - 3)%nat). unfold fmt_f. destruct EF as [F1 F2]. assert (EA : (Qabs q == q)%Q) by (apply Qabs_pos; lra).
    set (x := (Qabs q * pow10 (Z.of_nat k))%Q). pose proof (round_even_spec x) as RS. pose proof (pow10_pos (Z.of_nat k)) as PP.
    assert (X0 : (0 <= x)%Q) by (unfold x; rewrite EA; apply Qmult_le_0_compat; lra).
    pose proof (round_even_ge x 0 X0) as R0. assert (X1 : (x <= inject_Z (10 ^ (Z.of_nat k + 1)))%Q).
    { unfold x. rewrite EA, <- pow10_Z, pow10_S by lia. apply Qmult_le_r; auto. lra. }
    pose proof (round_even_le x _ X1) as R1. set (n := round_even x) in *. assert (P : 0 < 10 ^ Z.of_nat k) by (apply Z.pow_pos_nonneg; lia). assert (HQ0 : 0 <= n / 10 ^ Z.of_nat k) by (apply Z.div_pos; lia).
    assert (EB : forall s, s ++ dec (n / 10 ^ Z.of_nat k) ++ point k (map chr (padded k n)) = s ++ (dec (n / 10 ^ Z.of_nat k) ++ point k (map chr (padded k n)) ++ [])) by (intros; now rewrite app_nil_r).
    rewrite EB. set (body := dec (n / 10 ^ Z.of_nat k) ++ point k (map chr (padded k n)) ++ []).
    assert (LB : (List.length ((if Qle_bool 0 q then [] else str "-") ++ body) <= w)%nat).
    { rewrite (proj2 (Qle_bool_iff 0 q)) by lra. cbn [app]. unfold body. rewrite !app_length. cbn [List.length].
      assert (LP : (List.length (point k (map chr (padded k n))) <= k + 1)%nat) by (rewrite (point_len k) by (rewrite map_length; now apply padded_spec); destruct k; lia).
      assert (LD : (List.length (dec (n / 10 ^ Z.of_nat k)) <= 2)%nat).
      { unfold dec. rewrite map_length. apply digits_len; auto. assert (n / 10 ^ Z.of_nat k < 100); [|cbn; lia]. apply Z.div_lt_upper_bound; [lia|]. rewrite Z.pow_add_r in R1 by lia. change (10 ^ 1) with 10 in R1. nia. }
      unfold k in *. lia. }
    destruct (Nat.ltb_spec w (List.length ((if Qle_bool 0 q then [] else str "-") ++ body))) as [L|_]; [lia|]. cbn [andb].
    eexists _, _. split; [reflexivity|]. split; [now apply rjust_len|]. split.
    { apply read_signed; [apply dec_head; auto|]. apply (read_body k n [] 0); [lia|exact Logic.I|discriminate|reflexivity]. }
    split; [|intros K; exfalso; apply K; split; auto]. intros _. rewrite signed_err. replace (0 - Z.of_nat k) with (- Z.of_nat k) by lia. pose proof (pow10_pos (- Z.of_nat k)) as PN.
    assert (EQ : (inject_Z n * pow10 (- Z.of_nat k) - Qabs q == (inject_Z n - x) * pow10 (- Z.of_nat k))%Q).
    { unfold x. pose proof (pow10_opp (Z.of_nat k)) as O. assert ((Qabs q * pow10 (Z.of_nat k) * pow10 (- Z.of_nat k) == Qabs q)%Q) by (rewrite <- Qmult_assoc, O; ring). lra. }
    rewrite EQ, Qabs_Qmult, (Qabs_pos (pow10 _)) by lra. rewrite (Qmult_comm (pow10 (- Z.of_nat k))). apply Qmult_le_r; auto.
Qed.
