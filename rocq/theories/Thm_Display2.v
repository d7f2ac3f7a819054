(** * C115: the columns and lines of the printed table *)
From Coq Require Import Ascii String List Arith Bool ZArith QArith Qpower Qround Qabs Lia Lqa.
From Verif Require Import S_Display M_Display Thm_Display.
Import ListNotations.
Local Open Scope list_scope.
Local Open Scope Z_scope.

(** ** widths *)
Lemma rjust_len w t : (List.length t <= w)%nat -> List.length (rjust w t) = w.
Proof. intros H. unfold rjust. rewrite app_length, repeat_length. lia. Qed.
Lemma format_len v w tr t : format_text v w tr = Some t -> tr = true -> List.length t = w.
Proof.
  unfold format_text. intros H ->. match type of H with match ?r with _ => _ end = _ => destruct r as [x|]; [|discriminate] end. injection H as <-. cbn [andb].
  destruct (Nat.ltb_spec w (List.length x)); apply rjust_len; auto. rewrite firstn_length. lia.
Qed.
Lemma center_len w t : (List.length t <= w)%nat -> List.length (center w t) = w.
Proof.
  intros H. unfold center. cbv zeta. destruct (Nat.leb_spec w (List.length t)); [lia|]. rewrite !app_length, !repeat_length. set (mg := (w - List.length t)%nat).
  assert (L : (mg / 2 + (if (Nat.odd mg && Nat.odd w)%bool then 1 else 0) <= mg)%nat).
  { pose proof (Nat.div_mod mg 2 ltac:(lia)) as D. destruct (Nat.odd mg) eqn:E; cbn [andb]; [|lia]. rewrite Nat.odd_spec in E. destruct E as [j E]. destruct (Nat.odd w); lia. }
  unfold mg in *. lia.
Qed.
Lemma join_len ls ms : map (@List.length ascii) ls = map (@List.length ascii) ms -> List.length (join_cols ls) = List.length (join_cols ms).
Proof.
  revert ms. induction ls as [|x ls IH]; intros [|y ms] H; try discriminate; auto. cbn [map] in H. injection H as H1 H2.
  assert (E : forall (a : text) l, List.length (join_cols (a :: l)) = (List.length a + match l with [] => 0 | _ => List.length sep + List.length (join_cols l) end)%nat).
  { intros a [|b l]; [cbn; lia|]. cbn [join_cols]. rewrite !app_length. reflexivity. }
  rewrite !E, H1. specialize (IH ms H2). destruct ls, ms; try discriminate; auto.
Qed.
Lemma all_some_length cs t : all_some (map (fun c => format_text (col_value c) (col_width c) (col_truncate c)) cs) = Some t -> Forall (fun c => col_truncate c = true) cs ->
  map (@List.length ascii) t = map col_width cs.
Proof.
  revert t. induction cs as [|c cs IH]; intros t H HT; cbn [map all_some] in *; [injection H as <-; auto|].
  destruct (format_text (col_value c) (col_width c) (col_truncate c)) as [x|] eqn:E; [|discriminate].
  destruct (all_some _) as [l|] eqn:EL; [|discriminate]. cbn in H. injection H as <-. cbn [map]. f_equal; [eapply format_len; eauto; now apply (Forall_inv HT)|].
  apply IH; auto. now apply (Forall_inv_tail HT).
Qed.
(** C115: every line of the table - header, border, values - has the same length, if no name is wider than its column and all columns truncate *)
Theorem C115_table : forall cols t, Forall (fun c => col_truncate c = true /\ (List.length (col_name c) <= col_width c)%nat) cols -> row_text cols = Some t ->
  List.length t = List.length (header cols) /\ exists line, header_border cols = line ++ [nl] ++ header cols ++ [nl] ++ line /\ List.length line = List.length t.
Proof.
  intros cols t HC HR. unfold row_text in HR. destruct (all_some _) as [ls|] eqn:E; [|discriminate]. cbn in HR. injection HR as <-.
  assert (EQ : List.length (join_cols ls) = List.length (header cols)).
  { unfold header. apply join_len. rewrite (all_some_length _ _ E) by (eapply Forall_impl; [|exact HC]; intros ? [? _]; assumption). rewrite map_map. apply map_ext_in. intros c Hc. symmetry. apply center_len.
    rewrite Forall_forall in HC. now apply HC. }
  split; auto. exists (repeat "="%char (List.length (header cols))). split; [reflexivity|]. now rewrite repeat_length.
Qed.
(** C115: and values are always printable in columns of width 7 and more *)
Theorem C115_printable : forall cols, Forall (fun c => (7 <= col_width c)%nat \/ match col_value c with VNone | VStr _ | VInt _ => True | _ => False end) cols -> exists t, row_text cols = Some t.
Proof.
  intros cols H. unfold row_text. enough (exists l, all_some (map (fun c => format_text (col_value c) (col_width c) (col_truncate c)) cols) = Some l) as [l ->] by (eexists; reflexivity).
  induction H as [|c cols Hc _ [l IH]]; cbn [map all_some]; [eauto|].
  assert (exists t, format_text (col_value c) (col_width c) (col_truncate c) = Some t) as [t ->]; [|rewrite IH; eexists; reflexivity].
  unfold format_text. destruct (col_value c); cbn [number_to_text]; try (eexists; reflexivity); (destruct Hc as [Hc|[]]);
    rewrite ?(proj2 (Nat.leb_le 7 (col_width c))), ?(proj2 (Nat.leb_le 3 (col_width c))) by lia; try destruct (_ || _)%bool; eexists; reflexivity.
Qed.

(** ** reading *)
Lemma skip_spaces_app k l : skip_spaces (repeat " "%char k ++ l) = skip_spaces l.
Proof. induction k; cbn; auto. Qed.
Lemma read_rjust w t c r : t = c :: r -> Ascii.eqb c " " = false -> read (rjust w t) = read t.
Proof. intros -> H. unfold read, rjust. rewrite skip_spaces_app. cbn [skip_spaces]. now rewrite H. Qed.
Lemma read_number ds k ps r e : ds <> [] -> Forall isd ds -> List.length ps = k -> Forall isd ps -> no_digit r -> (k = 0%nat -> forall c r', r = c :: r' -> Ascii.eqb c "." = false) ->
  read_exp r = Some e -> read_unsigned (map chr ds ++ point k (map chr ps) ++ r) = Some (inject_Z (number_of (ds ++ ps)) * Qpower 10 (e - Z.of_nat k))%Q.
Proof.
  intros HN HD HL HP HR HDot HE. unfold read_unsigned. rewrite (span_chr ds).
  2: auto. 2: { destruct k; cbn [point]; [exact HR|reflexivity]. }
  destruct ds as [|d ds]; [congruence|]. destruct k as [|k].
  - destruct ps; [|discriminate]. cbn [point app]. destruct r as [|c r].
    + rewrite HE. cbn [List.length]. rewrite app_nil_r. reflexivity.
    + rewrite (HDot eq_refl c r eq_refl), HE. cbn [List.length]. rewrite app_nil_r. reflexivity.
  - cbn [point]. change (str "." ++ map chr ps) with ("."%char :: map chr ps). cbn [app]. change (Ascii.eqb "." ".") with true. cbv iota.
    rewrite span_chr by auto. rewrite HE, HL. reflexivity.
Qed.
Lemma read_sign q t : (exists d r, t = chr d :: r /\ isd d) -> read ((if Qle_bool 0 q then [] else str "-") ++ t) = if Qle_bool 0 q then read_unsigned t else option_map Qopp (read_unsigned t).
Proof.
  intros (d & r & -> & Hd). destruct (Qle_bool 0 q); cbn [app].
  - unfold read. cbn [skip_spaces]. rewrite (chr_not d " " Hd) by reflexivity. now rewrite (chr_not d "-" Hd) by reflexivity.
  - reflexivity.
Qed.
Lemma dec_head n t : 0 <= n -> exists d r, dec n ++ t = chr d :: r /\ isd d.
Proof.
  intros Hn. destruct (digits_spec n Hn) as (_ & HD & HN & _). unfold dec. destruct (digits n) as [|d l]; [congruence|]. exists d, (map chr l ++ t). split; auto. now apply (Forall_inv HD).
Qed.
Lemma rjust_signed w q t : (exists d r, t = chr d :: r /\ isd d) -> read (rjust w ((if Qle_bool 0 q then [] else str "-") ++ t)) = read ((if Qle_bool 0 q then [] else str "-") ++ t).
Proof.
  intros (d & r & -> & Hd). destruct (Qle_bool 0 q); cbn [app]; eapply read_rjust; try reflexivity. now apply chr_not.
Qed.
(** C115: an int is shown exactly as long as it has at most [width] digits; beyond that its last digits are cut off, so that the number read is smaller *)
Theorem C115_int : forall n w, 0 <= n -> (1 <= w)%nat -> exists t v, format_text (VInt n) w true = Some t /\ List.length t = w /\ read t = Some v /\
  (n < 10 ^ Z.of_nat w -> (v == inject_Z n)%Q) /\ (10 ^ Z.of_nat w <= n -> exists m, 1 <= m /\ (v == inject_Z (n / 10 ^ m))%Q /\ n / 10 ^ m < 10 ^ Z.of_nat w).
Proof.
  intros n w Hn Hw. unfold format_text. assert (E : str_int n = dec n) by (unfold str_int; destruct (Z.ltb_spec n 0); [lia|auto]). rewrite E. clear E.
  destruct (digits_spec n Hn) as (D1 & D2 & D3 & D4 & D5). cbn [andb].
  assert (RD : forall ds, ds <> [] -> Forall isd ds -> (List.length ds <= w)%nat -> read (rjust w (map chr ds)) = Some (inject_Z (number_of ds) * Qpower 10 0)%Q).
  { intros ds N1 N2 N3. destruct ds as [|d ds]; [congruence|]. erewrite read_rjust; [|reflexivity|apply chr_not; [now apply (Forall_inv N2)|reflexivity]].
    unfold read. cbn [map skip_spaces]. rewrite (chr_not d " ") by (try reflexivity; now apply (Forall_inv N2)). rewrite (chr_not d "-") by (try reflexivity; now apply (Forall_inv N2)).
    pose proof (read_number (d :: ds) 0 [] [] 0 N1 N2 eq_refl (Forall_nil _) Logic.I ltac:(discriminate) eq_refl) as R. cbn [map point app] in R. rewrite !app_nil_r in R. exact R. }
  unfold dec. rewrite map_length. destruct (Nat.ltb_spec w (List.length (digits n))) as [L|L].
  - rewrite firstn_map. eexists _, _. split; [reflexivity|]. split; [apply rjust_len; rewrite map_length, firstn_length; lia|].
    split; [apply RD; [destruct (digits n); [congruence|destruct w; [lia|discriminate]]| |rewrite firstn_length; lia]|].
    { apply Forall_forall. intros d Hd. rewrite Forall_forall in D2. apply D2. rewrite <- (firstn_skipn w). apply in_or_app. now left. }
    split; [intros H; pose proof (digits_len n w Hn Hw H); lia|]. intros _. exists (Z.of_nat (List.length (digits n) - w)). split; [lia|].
    pose proof (number_app (firstn w (digits n)) (skipn w (digits n))) as NA. rewrite firstn_skipn, D1, skipn_length in NA. set (m := Z.of_nat (List.length (digits n) - w)) in *.
    assert (HB : forall ds, Forall isd ds -> 0 <= number_of ds < 10 ^ Z.of_nat (List.length ds)).
    { clear. induction ds as [|d ds IH] using rev_ind; intros H; [cbn; lia|]. apply Forall_app in H as [H1 H2]. apply Forall_inv in H2. specialize (IH H1). rewrite number_snoc, app_length. cbn [List.length].
      replace (Z.of_nat (List.length ds + 1)) with (Z.of_nat (List.length ds) + 1) by lia. rewrite Z.pow_add_r by lia. unfold isd in H2. lia. }
    assert (B1 : 0 <= number_of (skipn w (digits n)) < 10 ^ m).
    { unfold m. rewrite <- skipn_length. apply HB. apply Forall_forall. intros d Hd. rewrite Forall_forall in D2. apply D2. rewrite <- (firstn_skipn w). apply in_or_app. now right. }
    assert (B2 : number_of (firstn w (digits n)) < 10 ^ Z.of_nat w).
    { replace w with (List.length (firstn w (digits n))) at 2 by (rewrite firstn_length; lia). apply HB. apply Forall_forall. intros d Hd. rewrite Forall_forall in D2. apply D2. rewrite <- (firstn_skipn w). apply in_or_app. now left. }
    assert (EQ : n / 10 ^ m = number_of (firstn w (digits n))) by (symmetry; apply (Z.div_unique n (10 ^ m) _ (number_of (skipn w (digits n)))); [left; lia|lia]).
    rewrite EQ. split; [|exact B2]. cbn. ring.
  - eexists _, _. split; [reflexivity|]. split; [apply rjust_len; now rewrite map_length|]. split; [apply RD; auto|]. rewrite D1. split; [intros _; cbn; ring|].
    intros H. pose proof (digits_len_ge n w H). lia.
Qed.
