(** * Proofs about Das-Dennis points *)
From Coq Require Import List Arith Bool ZArith QArith Lia Lqa Permutation Sorted.
From Verif Require Import ListAux M_RefDirs.
Import ListNotations.
Local Open Scope nat_scope.

(** compositions of beta into m+1 parts, in lexicographic order *)
Fixpoint comp (m beta : nat) : list (list nat) :=
  match m with 0 => [[beta]] | S m => flat_map (fun i => map (cons i) (comp m (beta - i))) (seq 0 (S beta)) end.
Lemma dd_rec_comp m : forall pre p beta, dd_rec m pre p beta = map (fun c => pre ++ map (frac p) c) (comp m beta).
Proof.
  induction m as [|m IH]; intros pre p beta; [reflexivity|]. cbn [dd_rec comp]. rewrite (flat_map_concat_map _ (seq _ _)), (flat_map_concat_map _ (seq _ _)), concat_map, map_map.
  f_equal. apply map_ext. intros i. rewrite IH, map_map. apply map_ext. intros c. cbn [map]. now rewrite <- app_assoc.
Qed.
Lemma comp_spec m : forall beta c, In c (comp m beta) <-> length c = S m /\ list_sum c = beta.
Proof.
  induction m as [|m IH]; intros beta c; cbn [comp].
  - split; [intros [<-|[]]; cbn; lia|]. intros [H1 H2]. destruct c as [|a [|b c]]; try discriminate. cbn in H2. left. f_equal. lia.
  - rewrite in_flat_map. split.
    + intros (i & Hi & H). apply in_map_iff in H as (c' & <- & H). apply IH in H as [H1 H2]. apply in_seq in Hi. cbn [length list_sum fold_right] in *. unfold list_sum in *. lia.
    + intros [H1 H2]. destruct c as [|i c]; [discriminate|]. cbn [list_sum fold_right] in H2. unfold list_sum in *. exists i. split; [apply in_seq; lia|]. apply in_map. apply IH. cbn in H1. unfold list_sum. lia.
Qed.
Lemma comp_NoDup m : forall beta, NoDup (comp m beta).
Proof.
  induction m as [|m IH]; intros beta; cbn [comp]; [repeat constructor; auto|].
  generalize (seq_NoDup (S beta) 0). generalize (seq 0 (S beta)). intros l HN. induction l as [|i l IHl]; [constructor|]. cbn [flat_map]. inversion HN as [|? ? Hi HN']; subst.
  assert (HM : NoDup (map (cons i) (comp m (beta - i)))) by (apply FinFun.Injective_map_NoDup; [intros x y E; now injection E|apply IH]).
  revert HM. generalize (comp m (beta - i)). intros L HM. specialize (IHl HN').
  assert (HD : forall x, In x (map (cons i) L) -> ~ In x (flat_map (fun j => map (cons j) (comp m (beta - j))) l)).
  { intros x Hx Hf. apply in_map_iff in Hx as (y & <- & _). apply in_flat_map in Hf as (j & Hj & Hf). apply in_map_iff in Hf as (z & E & _). injection E as -> ->. contradiction. }
  clear -IHl HM HD. induction (map (cons i) L) as [|x X IHX]; [exact IHl|]. cbn. inversion HM; subst. constructor.
  - rewrite in_app_iff. intros [Hf|Hf]; [contradiction|]. apply (HD x); simpl; auto.
  - apply IHX; auto. intros y Hy. apply HD; simpl; auto.
Qed.
Lemma binom_S n k : binom (S n) (S k) = binom n k + binom n (S k).
Proof. reflexivity. Qed.
Lemma comp_length m : forall beta, length (comp m beta) = binom (m + beta) beta.
Proof.
  induction m as [|m IH]; intros beta; cbn [comp].
  - cbn. induction beta as [|b IHb]; [reflexivity|]. cbn [binom]. rewrite <- IHb. assert (H0 : forall n k, n < k -> binom n k = 0).
    { clear. induction n as [|n IHn]; intros k Hk; (destruct k as [|k]; [lia|]); cbn [binom]; [reflexivity|]. rewrite !IHn; lia. }
    rewrite H0 by lia. reflexivity.
  - assert (HL : forall l, length (flat_map (fun i => map (cons i) (comp m (beta - i))) l) = list_sum (map (fun i => length (comp m (beta - i))) l)).
    { induction l as [|i l IHl]; [reflexivity|]. cbn [flat_map map]. rewrite app_length, map_length, IHl. reflexivity. }
    rewrite HL. clear HL. assert (HS : forall b, list_sum (map (fun i => length (comp m (b - i))) (seq 0 (S b))) = binom (S m + b) b).
    { induction b as [|b IHb].
      - cbn. rewrite IH. cbn. rewrite Nat.add_0_r. destruct m; reflexivity.
      - change (seq 0 (S (S b))) with (0 :: seq 1 (S b)). rewrite <- seq_shift. cbn [map]. rewrite map_map. change (list_sum (?a :: ?l)) with (a + list_sum l). rewrite Nat.sub_0_r, IH.
        rewrite (map_ext (fun x => length (comp m (S b - S x))) (fun i => length (comp m (b - i)))) by (intros; reflexivity).
        rewrite IHb. replace (S m + S b) with (S (m + S b)) by lia. rewrite binom_S. replace (S m + b) with (m + S b) by lia. lia. }
    apply HS.
Qed.

Lemma frac_inj p i j : 0 < p -> (frac p i == frac p j)%Q -> i = j.
Proof.
  intros Hp H. unfold frac in H. assert (Hq : ~ (inject_Z (Z.of_nat p) == 0)%Q) by (unfold Qeq; cbn; lia).
  assert (H2 : (inject_Z (Z.of_nat i) == inject_Z (Z.of_nat j))%Q).
  { rewrite <- (Qmult_div_r (inject_Z (Z.of_nat i)) (inject_Z (Z.of_nat p))), <- (Qmult_div_r (inject_Z (Z.of_nat j)) (inject_Z (Z.of_nat p))) by auto.
    rewrite H. reflexivity. }
  unfold Qeq in H2; cbn in H2. lia.
Qed.
Lemma qsum_frac p c : 0 < p -> (fold_right Qplus 0%Q (map (frac p) c) == frac p (list_sum c))%Q.
Proof.
  intros Hp. assert (Hq : ~ (inject_Z (Z.of_nat p) == 0)%Q) by (unfold Qeq; cbn; lia). induction c as [|i c IH]; cbn [map fold_right list_sum].
  - unfold frac. cbn. reflexivity.
  - rewrite IH. change (fold_right Nat.add 0 c) with (list_sum c). unfold frac. rewrite Nat2Z.inj_add, inject_Z_plus. field. auto.
Qed.
Lemma frac_range p i : 0 < p -> i <= p -> (0 <= frac p i)%Q /\ (frac p i <= 1)%Q.
Proof.
  intros Hp Hi. unfold frac. assert (Hq : (0 < inject_Z (Z.of_nat p))%Q) by (unfold Qlt; cbn; lia). split.
  - apply Qle_shift_div_l; auto. rewrite Qmult_0_l. unfold Qle; cbn; lia.
  - apply Qle_shift_div_r; auto. rewrite Qmult_1_l. unfold Qle; cbn; lia.
Qed.
Lemma frac_same p : 0 < p -> (frac p p == 1)%Q.
Proof. intros Hp. unfold frac. field. unfold Qeq; cbn; lia. Qed.
Lemma sum_ge_In c i : In i c -> i <= list_sum c.
Proof. induction c as [|a c IH]; [intros []|]. change (list_sum (a :: c)) with (a + list_sum c). intros [->|H]; [lia|]. apply IH in H. lia. Qed.

(** binomials *)
Lemma binom_0 n : binom n 0 = 1. Proof. destruct n; reflexivity. Qed.
Lemma n_uniform_comp m p : n_uniform p (S m) = length (comp m p).
Proof. unfold n_uniform. rewrite comp_length. f_equal. lia. Qed.
Lemma n_uniform_S m p : 1 <= m -> n_uniform p (S m) < n_uniform (S p) (S m).
Proof.
  intros Hm. unfold n_uniform. replace (S m + p - 1) with (m + p) by lia. replace (S m + S p - 1) with (S (m + p)) by lia. cbn [binom].
  assert (Hpos : forall n k, k <= n -> 1 <= binom n k).
  { clear. induction n as [|n IHn]; intros k Hk; destruct k as [|k]; cbn [binom]; try lia. specialize (IHn k ltac:(lia)). lia. }
  specialize (Hpos (m + p) (S p)). lia.
Qed.
Lemma n_uniform_mono m p q : 1 <= m -> p < q -> n_uniform p (S m) < n_uniform q (S m).
Proof. intros Hm H. induction H as [|q H IH]; [now apply n_uniform_S|]. pose proof (n_uniform_S m q Hm). lia. Qed.
Lemma n_uniform_ge m p : 1 <= m -> p < n_uniform p (S m).
Proof. intros Hm. induction p as [|p IH]; [unfold n_uniform; rewrite binom_0; lia|]. pose proof (n_uniform_S m p Hm). lia. Qed.
Lemma closest_go_spec m np : 1 <= m -> forall fuel p, 1 <= p -> np + 1 < fuel + p -> (p = 1 \/ n_uniform (p - 1) (S m) <= np) ->
  exists q, closest_go fuel np (S m) p = Some q /\ p - 1 <= q /\ (1 <= q -> n_uniform q (S m) <= np) /\ np < n_uniform (S q) (S m).
Proof.
  intros Hm. induction fuel as [|fuel IH]; intros p Hp Hf HI.
  - exfalso. destruct HI as [->|HI]; [|pose proof (n_uniform_ge m (p - 1) Hm)]; lia.
  - cbn [closest_go]. destruct (n_uniform p (S m) <=? np) eqn:E.
    + apply Nat.leb_le in E. destruct (IH (S p)) as (q & Hq & H1 & H2 & H3); try lia; [right; replace (S p - 1) with p by lia; exact E|]. exists q. split; auto. split; [lia|auto].
    + apply Nat.leb_gt in E. exists (p - 1). split; auto. split; [lia|]. split; [intros H; destruct HI as [->|HI]; [cbn in H; lia|auto]|]. replace (S (p - 1)) with p by lia. auto.
Qed.

(** the incremental generator *)
Section Inc.
  Variables (p n : nat) (scaling : option Q).
  Definition emit (pt : list Q) : list Q := match scaling with None => pt | Some s => scale_row s pt end.
  (** what remains to be produced below an entry: descending order *)
  Fixpoint desc (m : nat) (pre : list Q) (beta : nat) : list (list Q) :=
    match m with 0 => [emit (pre ++ [frac p beta])] | S m => flat_map (fun i => desc m (pre ++ [frac p i]) (beta - i)) (rev (seq 0 (S beta))) end.
  Definition pending (stack : list (list Q * nat)) : list (list Q) := flat_map (fun e => desc (n - 1 - length (fst e)) (fst e) (snd e)) stack.
  Definition stack_ok (stack : list (list Q * nat)) : Prop := Forall (fun e => length (fst e) < n) stack.
  Lemma rev_flat_map {A B} (f : A -> list B) l : rev (flat_map f l) = flat_map (fun x => rev (f x)) (rev l).
  Proof. induction l as [|a l IH]; [reflexivity|]. cbn [flat_map rev]. rewrite rev_app_distr, IH, flat_map_app. cbn. now rewrite app_nil_r. Qed.
  Lemma map_flat_map {A B C} (g : B -> C) (f : A -> list B) l : map g (flat_map f l) = flat_map (fun x => map g (f x)) l.
  Proof. induction l as [|a l IH]; [reflexivity|]. cbn [flat_map]. now rewrite map_app, IH. Qed.
  Lemma desc_rev m : forall pre beta, desc m pre beta = rev (map emit (dd_rec m pre p beta)).
  Proof.
    induction m as [|m IH]; intros pre beta; [reflexivity|]. cbn [desc dd_rec]. rewrite map_flat_map, rev_flat_map.
    rewrite !flat_map_concat_map. f_equal. apply map_ext. intros i. apply IH.
  Qed.
  Lemma traverse_spec fuel : forall np counter stack, stack_ok stack -> stack_nodes n stack < fuel ->
    let '(ret, st) := traverse fuel p n scaling np counter stack in
    stack_ok st /\ ret ++ pending st = pending stack /\
    match np with None => st = [] | Some k => (counter <= k -> length ret <= k - counter) /\ (st <> [] -> k <= counter + length ret) end.
  Proof.
    induction fuel as [|fuel IH]; intros np counter stack HO HF; [lia|]. cbn [traverse].
    destruct (match np with None => false | Some k => k <=? counter end) eqn:EC.
    - split; auto. split; [reflexivity|]. destruct np as [k|]; [|discriminate]. apply Nat.leb_le in EC. cbn [length]. split; intros; lia.
    - destruct stack as [|[point beta] stack].
      + split; [constructor|]. split; [reflexivity|]. destruct np as [k|]; auto. cbn. split; intros; [lia|congruence].
      + inversion HO as [|? ? HO1 HO2]; subst. cbn [fst] in HO1.
        assert (HSN : stack_nodes n ((point, beta) :: stack) = dd_nodes (n - 1 - length point) beta + stack_nodes n stack) by reflexivity.
        destruct (length point + 1 =? n) eqn:EL.
        * apply Nat.eqb_eq in EL. assert (Hm : n - 1 - length point = 0) by lia.
          specialize (IH np (S counter) stack HO2). rewrite Hm in HSN. cbn [dd_nodes] in HSN. specialize (IH ltac:(lia)).
          destruct (traverse fuel p n scaling np (S counter) stack) as [ret st]. destruct IH as (H1 & H2 & H3). split; auto. split.
          -- unfold pending in *. cbn [app flat_map fst snd]. rewrite Hm. cbn [desc app]. f_equal. exact H2.
          -- destruct np as [k|]; auto. apply Nat.leb_gt in EC. destruct H3 as [H3 H4]. cbn [length]. split; intros; [specialize (H3 ltac:(lia)); lia|specialize (H4 H); lia].
        * apply Nat.eqb_neq in EL. destruct (n - 1 - length point) as [|m] eqn:Hm; [lia|]. cbn [dd_nodes] in HSN.
          assert (HP : forall L, pending (map (fun i => (point ++ [frac p i], beta - i)) L ++ stack) = flat_map (fun i => desc m (point ++ [frac p i]) (beta - i)) L ++ pending stack).
          { intros L. unfold pending. rewrite flat_map_app. f_equal. rewrite !flat_map_concat_map, map_map. f_equal. apply map_ext. intros i. cbn [fst snd]. rewrite app_length. cbn [length]. replace (n - 1 - (length point + 1)) with m by lia. reflexivity. }
          assert (HN : forall L, stack_nodes n (map (fun i => (point ++ [frac p i], beta - i)) L ++ stack) = list_sum (map (fun i => dd_nodes m (beta - i)) L) + stack_nodes n stack).
          { intros L. unfold stack_nodes. rewrite map_app, list_sum_app. f_equal. rewrite map_map. f_equal. apply map_ext. intros i. cbn [fst snd]. rewrite app_length. cbn [length]. replace (n - 1 - (length point + 1)) with m by lia. reflexivity. }
          unfold dd_push. rewrite <- map_rev. specialize (IH np counter (map (fun i => (point ++ [frac p i], beta - i)) (rev (seq 0 (S beta))) ++ stack)).
          assert (HR : forall L : list nat, list_sum (rev L) = list_sum L) by (induction L as [|x L IHL]; [reflexivity|]; cbn [rev]; rewrite list_sum_app, IHL; simpl; lia).
          assert (HO3 : stack_ok (map (fun i => (point ++ [frac p i], beta - i)) (rev (seq 0 (S beta))) ++ stack)).
          { apply Forall_app. split; auto. apply Forall_map, Forall_forall. intros i _. cbn [fst]. rewrite app_length. cbn. lia. }
          specialize (IH HO3). rewrite HN, map_rev, HR in IH. specialize (IH ltac:(lia)).
          destruct (traverse fuel p n scaling np counter _) as [ret st]. destruct IH as (H1 & H2 & H3). split; auto. split; auto.
          rewrite H2, HP. unfold pending at 2. cbn [flat_map fst snd]. rewrite Hm. reflexivity.
  Qed.
End Inc.
