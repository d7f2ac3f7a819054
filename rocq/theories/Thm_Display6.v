(** * C115: negative floats with a three-digit exponent *)
From Coq Require Import Ascii String List Arith Bool ZArith QArith Qpower Qround Qabs Lia Lqa.
From Verif Require Import S_Display M_Display Thm_Display Thm_Display2 Thm_Display3 Thm_Display4 Thm_Display5.
Import ListNotations.
Local Open Scope list_scope.
Local Open Scope Z_scope.

Opaque pow10.
(** the printed text of a negative float with a three-digit exponent *)
Lemma cut_text q w : (8 <= w)%nat -> (q < 0)%Q -> let '(n, e) := sci (w - 7) q in 100 <= Z.abs e <= 999 -> 10 ^ Z.of_nat (w - 7) <= n < 10 ^ (Z.of_nat (w - 7) + 1) ->
  exists t e', format_text (VFloat q) w true = Some t /\ List.length t = w /\ e' = Z.sgn e * (Z.abs e / 10) /\ read t = Some (- (inject_Z n * pow10 (e' - Z.of_nat (w - 7))))%Q.
Proof.
  intros Hw HQ. destruct (sci (w - 7) q) as [n e] eqn:ES. intros HE HN. set (k := (w - 7)%nat) in *.
  unfold format_text, number_to_text. rewrite (proj2 (Nat.leb_le 7 w)) by lia.
  assert (EC : (Qle_bool 10 q || negb (Qle_bool 1 (q * 100000)))%bool = true).
  { destruct (Qle_bool 1 (q * 100000)) eqn:E2; [apply Qle_bool_iff in E2; lra|]. now rewrite orb_true_r. }
  rewrite EC. unfold fmt_E. fold k. rewrite ES. assert (QN : Qle_bool 0 q = false) by (destruct (Qle_bool 0 q) eqn:E; auto; apply Qle_bool_iff in E; lra). rewrite QN.
  assert (P : 0 < 10 ^ Z.of_nat k) by (apply Z.pow_pos_nonneg; lia). assert (HQ0 : 0 <= n / 10 ^ Z.of_nat k) by (apply Z.div_pos; lia).
  assert (LD : List.length (dec (n / 10 ^ Z.of_nat k)) = 1%nat).
  { unfold dec. rewrite map_length. assert (n / 10 ^ Z.of_nat k < 10) by (apply Z.div_lt_upper_bound; [lia|]; destruct HN as [_ S1]; rewrite Z.pow_add_r in S1 by lia; change (10 ^ 1) with 10 in S1; lia).
    pose proof (digits_len (n / 10 ^ Z.of_nat k) 1 HQ0 ltac:(lia) ltac:(cbn; lia)). destruct (digits_spec (n / 10 ^ Z.of_nat k) HQ0) as (_ & _ & N & _). destruct (digits _); [congruence|cbn [List.length] in *; lia]. }
  assert (LP : List.length (point k (map chr (padded k n))) = (k + 1)%nat) by (rewrite (point_len k) by (rewrite map_length; apply padded_spec; lia); destruct k eqn:EK; unfold k in *; lia).
  destruct (exp_digits_spec e) as (X1 & X2 & X3). pose proof (exp_len3 e HE) as X4. destruct (exp_digits e) as [|a [|b [|c [|]]]] eqn:EX; try discriminate X4. clear X1 X4.
  set (sgn := if e <? 0 then str "E-" else str "E+"). set (pre := str "-" ++ dec (n / 10 ^ Z.of_nat k) ++ point k (map chr (padded k n)) ++ sgn ++ map chr [a; b]).
  assert (ET : str "-" ++ dec (n / 10 ^ Z.of_nat k) ++ point k (map chr (padded k n)) ++ fmt_exp e = pre ++ [chr c]).
  { unfold pre. rewrite fmt_exp_eq, EX. fold sgn. cbn [map]. rewrite <- !app_assoc. reflexivity. }
  assert (LS : List.length sgn = 2%nat) by (unfold sgn; destruct (e <? 0); reflexivity).
  assert (LPre : List.length pre = w) by (unfold pre; rewrite !app_length, LD, LP, LS; cbn [List.length map]; change (List.length (str "-")) with 1%nat; unfold k; lia).
  rewrite ET. destruct (Nat.ltb_spec w (List.length (pre ++ [chr c]))) as [_|L]; [|rewrite app_length in L; cbn [List.length] in L; lia]. cbn [andb].
  assert (EF : firstn w (pre ++ [chr c]) = pre) by (rewrite firstn_app, LPre, Nat.sub_diag, app_nil_r; rewrite <- LPre; apply firstn_all). rewrite EF.
  exists (rjust w pre), (Z.sgn e * (Z.abs e / 10)). split; auto. split; [apply rjust_len; lia|]. split; auto.
  assert (D3 : isd a /\ isd b /\ isd c) by (inversion X2 as [|? ? ? X5]; inversion X5 as [|? ? ? X6]; inversion X6; auto). destruct D3 as (Da & Db & Dc).
  assert (EE : read_exp (sgn ++ map chr [a; b]) = Some (Z.sgn e * (Z.abs e / 10))).
  { pose proof (read_exp_digits (e <? 0) [a; b] ltac:(discriminate) ltac:(auto)) as R. unfold sgn. rewrite R. f_equal.
    assert (number_of [a; b] = Z.abs e / 10). { rewrite <- X3. unfold number_of. cbn [fold_left]. unfold isd in *. apply (Z.div_unique_pos _ 10 _ c); lia. } destruct (Z.ltb_spec e 0); lia. }
  assert (HB : read_unsigned (dec (n / 10 ^ Z.of_nat k) ++ point k (map chr (padded k n)) ++ sgn ++ map chr [a; b]) = Some (inject_Z n * pow10 (Z.sgn e * (Z.abs e / 10) - Z.of_nat k))%Q).
  { apply read_body; [lia| | |exact EE].
    - generalize (map chr [a; b]). intros l. unfold sgn. destruct (e <? 0); reflexivity.
    - generalize (map chr [a; b]). intros l c0 r0. unfold sgn. destruct (e <? 0); cbn [app str list_ascii_of_string]; intros HH; injection HH as <- _; reflexivity. }
  pose proof (read_signed q _ w _ ltac:(apply dec_head; eauto) HB) as R. rewrite QN in R. unfold pre. rewrite R. unfold signed. now rewrite QN.
Qed.
(** C115, exception: a negative float whose exponent has three digits loses the last of them in a column of width 8 or more (all standard columns): a number below -10^100 is shown
    as one above -10^31, one between -10^-100 and 0 as one below -10^-33 *)
Theorem C115_float_cut : forall q w, (8 <= w)%nat -> (q < 0)%Q ->
  (pow10 100 <= - q < pow10 309 -> exists t v, format_text (VFloat q) w true = Some t /\ List.length t = w /\ read t = Some v /\ - pow10 31 < v)%Q /\
  (pow10 (-330) <= - q < pow10 (-100) -> exists t v, format_text (VFloat q) w true = Some t /\ List.length t = w /\ read t = Some v /\ v <= - pow10 (-33))%Q.
Proof.
  intros q w Hw HQ. pose proof (cut_text q w Hw HQ) as CT. assert (NZ : ~ (q == 0)%Q) by lra. pose proof (sci_spec (w - 7) q NZ) as S. destruct (sci (w - 7) q) as [n e].
  assert (EA : (Qabs q == - q)%Q) by (apply Qabs_neg; lra). destruct S as (S1 & S2 & S3 & S4). set (k := Z.of_nat (w - 7)) in *.
  assert (PK : 0 < 10 ^ k) by (apply Z.pow_pos_nonneg; lia).
  assert (SPL : forall x, (inject_Z (10 ^ k) * pow10 (x - k) == pow10 x)%Q).
  { intros x. rewrite <- pow10_Z by lia. rewrite <- pow10_add. replace (k + (x - k)) with x by lia. reflexivity. }
  split; intros [H1 H2].
  - assert (B : 100 <= exponent (Qabs q) < 309) by (apply expo_bounds; lra). destruct CT as (t & e' & T1 & T2 & T3 & T4); [lia|lia|]. exists t. eexists. split; [exact T1|]. split; auto. split; [exact T4|].
    assert (E31 : e' <= 30) by (rewrite T3; assert (Z.abs e / 10 < 31) by (apply Z.div_lt_upper_bound; lia); rewrite Z.sgn_pos by lia; lia).
    assert (NL : (inject_Z n * pow10 (e' - k) < inject_Z (10 ^ (k + 1)) * pow10 (e' - k))%Q) by (apply Qmult_lt_r; [apply pow10_pos|rewrite <- Zlt_Qlt; lia]).
    rewrite Z.pow_add_r, inject_Z_mult, <- Qmult_assoc, (Qmult_comm (inject_Z (10 ^ 1))), Qmult_assoc, SPL in NL by lia. change (inject_Z (10 ^ 1)) with 10%Q in NL.
    pose proof (pow10_le e' 30 E31). assert (E1 : (pow10 31 == 10 * pow10 30)%Q) by exact (pow10_S 30). lra.
  - assert (B : -330 <= exponent (Qabs q) < -100) by (apply expo_bounds; lra). destruct CT as (t & e' & T1 & T2 & T3 & T4); [lia|lia|]. exists t. eexists. split; [exact T1|]. split; auto. split; [exact T4|].
    assert (E33 : -33 <= e') by (rewrite T3; assert (Z.abs e / 10 <= 33) by (apply Z.lt_succ_r, Z.div_lt_upper_bound; lia); rewrite Z.sgn_neg by lia; lia).
    assert (NL : (inject_Z (10 ^ k) * pow10 (e' - k) <= inject_Z n * pow10 (e' - k))%Q) by (apply Qmult_le_r; [apply pow10_pos|rewrite <- Zle_Qle; lia]).
    rewrite SPL in NL. pose proof (pow10_le (-33) e' E33). lra.
Qed.

Transparent pow10.
Definition show (o : option text) : option string := option_map string_of_list_ascii o.
Example C115_float_cut_ex : show (format_text (VFloat (- (1234567 # 1) * pow10 94)) 13 true) = Some "-1.234567E+10"%string /\ show (format_text (VFloat (- (1234567 # 1) * pow10 (-107))) 13 true) = Some "-1.234567E-10"%string
  /\ show (format_text (VFloat ((1234567 # 1) * pow10 94)) 13 true) = Some "1.234567E+100"%string.
Proof. vm_compute. auto. Qed.
Example C115_float_ex : show (format_text (VFloat (314159265 # 100000000)) 13 true) = Some " 3.1415926500"%string /\ show (format_text (VFloat (- (314159265 # 100000000))) 13 true) = Some "-3.141593E+00"%string.
Proof. vm_compute. auto. Qed.

(** an optimization of a constrained bi-objective problem with known front by one algorithm and of an unconstrained one by a second algorithm with the same (default) output *)
Definition ex_p1 : pinfo := {| p_constr := true; p_has_pf := true; p_n_obj := 2 |}.
Definition ex_p2 : pinfo := {| p_constr := false; p_has_pf := false; p_n_obj := 3 |}.
Example C115_output_ex :
  let os := [NewOutput; NewAlgorithm (Some 0); NewAlgorithm (Some 0); Setup 1 ex_p2 true None; Generation 1; Setup 0 ex_p1 true None; Generation 1; Generation 0; Generation 0; Generation 1]%nat in
  let w := do_ops multi_columns world0 os in
  map (fun e => (match fst e with Some h => Some (map fst h) | None => None end, map fst (snd e))) (printed_by 0 w) =
    (let cols := ["n_gen"; "n_eval"; "n_nds"; "cv_min"; "cv_avg"; "igd"; "gd"; "hv"]%string in [(Some cols, cols); (None, cols)]) /\
  map (fun e => map fst (snd e)) (printed_by 1 w) = repeat ["n_gen"; "n_eval"; "n_nds"; "eps"; "indicator"]%string 3.
Proof. vm_compute. auto. Qed.
Example C115_output_hyps :
  let rest := [Generation 1; Generation 0; Generation 0; Generation 1]%nat in
  let mid2 := [NewAlgorithm (Some 0); Setup 1 ex_p2 true None; Generation 1]%nat in
  the_algorithm multi_columns [] [] = 0%nat /\ the_output multi_columns [] = 0%nat /\ the_copy multi_columns [] [] mid2 = 2%nat /\
  valid multi_columns world0 (before multi_columns [] [] mid2 ++ Setup 0 ex_p1 true None :: rest) /\
  never_given 0 (before multi_columns [] [] mid2) /\ never_given 2 rest /\ no_setup 0 mid2 /\ no_setup 0 rest /\ gens 0 rest = 2%nat.
Proof.
  cbv zeta. split; [reflexivity|]. split; [reflexivity|]. split; [reflexivity|]. split; [cbn; lia|].
  split; [intros i p v K; cbn in K; intuition discriminate|]. split; [intros i p v K; cbn in K; intuition discriminate|]. split; [intros p v g K; cbn in K; intuition discriminate|]. split; [intros p v g K; cbn in K; intuition discriminate|reflexivity].
Qed.
(** an output given to two setups: the second run prints no header and has the columns of the first problem *)
Example C115_output_given_ex :
  let w := do_ops multi_columns world0 [NewOutput; NewAlgorithm None; NewAlgorithm None; Setup 0 ex_p1 true (Some 0); Generation 0; Setup 1 ex_p2 true (Some 0); Generation 1]%nat in
  map (fun e => (fst e, map fst (snd e))) (printed_by 1 w) = [(None, ["n_gen"; "n_eval"; "n_nds"; "cv_min"; "cv_avg"; "igd"; "gd"; "hv"]%string)].
Proof. vm_compute. auto. Qed.
