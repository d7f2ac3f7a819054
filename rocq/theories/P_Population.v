From Coq Require Import String List Arith Bool Lia Permutation.
From Verif Require Import ListAux M_Population.
Import ListNotations.
Local Open Scope nat_scope.

Section Pop.
  Context {V : Type}.
  Implicit Types (h : heap V) (pop : list nat).

  Lemma set_each_other h pop key vs : forall r, ~ In r pop -> obj (set_each h pop key vs) r = obj h r.
  Proof.
    revert h vs. induction pop as [|x pop IH]; intros h [|v vs] r Hr; simpl in *; auto.
    rewrite IH by tauto. simpl. destruct (Nat.eqb_spec r x); auto. subst. tauto.
  Qed.
  Lemma set_each_alloc h pop key vs : alloc (set_each h pop key vs) = alloc h.
  Proof. revert h vs. induction pop as [|x pop IH]; intros h [|v vs]; simpl; auto. now rewrite IH. Qed.
  Lemma set_each_evald h pop key vs r : evald (obj (set_each h pop key vs) r) = evald (obj h r).
  Proof.
    revert h vs. induction pop as [|x pop IH]; intros h [|v vs]; simpl; auto.
    rewrite IH. simpl. destruct (Nat.eqb_spec r x); auto. now subst.
  Qed.
  Lemma set_each_keys h pop key vs r k : k <> key -> vals (obj (set_each h pop key vs) r) k = vals (obj h r) k.
  Proof.
    intros Hk. revert h vs. induction pop as [|x pop IH]; intros h [|v vs]; simpl; auto.
    rewrite IH. simpl. destruct (Nat.eqb_spec r x); auto. subst. simpl. destruct (String.eqb_spec k key); congruence.
  Qed.
  Lemma set_each_get h pop key vs i : NoDup pop -> length vs = length pop -> i < length pop ->
    vals (obj (set_each h pop key vs) (nth i pop 0)) key = nth_error vs i.
  Proof.
    revert h vs i. induction pop as [|x pop IH]; intros h [|v vs] i Hnd Hl Hi; simpl in *; try lia.
    apply NoDup_cons_iff in Hnd as [Hx Hnd]. destruct i as [|i].
    - rewrite set_each_other by auto. simpl. rewrite Nat.eqb_refl. simpl. now rewrite String.eqb_refl.
    - rewrite IH by (auto; lia). reflexivity.
  Qed.

  (** the effect of setting a list of keys (later entries win) *)
  Lemma set_keys_effect pop : NoDup pop -> forall kvs h,
    Forall (fun kv => length (snd kv) = length pop) kvs ->
    let h' := fst (set_keys h pop kvs) in
    snd (set_keys h pop kvs) = true /\ alloc h' = alloc h /\
    (forall r, ~ In r pop -> obj h' r = obj h r) /\
    (forall r, evald (obj h' r) = evald (obj h r)) /\
    (forall r k, ~ In k (map fst kvs) -> vals (obj h' r) k = vals (obj h r) k) /\
    (NoDup (map fst kvs) -> forall k vs i, In (k, vs) kvs -> i < length pop -> vals (obj h' (nth i pop 0)) k = nth_error vs i).
  Proof.
    intros Hnd. induction kvs as [|[key vs] kvs IH]; intros h HF; cbn [set_keys fst snd].
    - repeat split; auto. intros _ k vs i [].
    - apply Forall_cons_iff in HF as [Hl HF]. cbn [snd] in Hl. rewrite Hl, Nat.eqb_refl.
      destruct (IH (set_each h pop key vs) HF) as (I1 & I2 & I3 & I4 & I5 & I6). cbv zeta in *.
      split; auto. split; [rewrite I2; apply set_each_alloc|].
      split; [intros r Hr; rewrite I3 by auto; now apply set_each_other|].
      split; [intros r; rewrite I4; apply set_each_evald|].
      split.
      + intros r k Hk. cbn [map fst] in Hk. rewrite I5 by (simpl in Hk; tauto). apply set_each_keys. simpl in Hk. intuition.
      + intros Hn k vs' i Hin Hi. cbn [map fst] in Hn. apply NoDup_cons_iff in Hn as [Hkey Hn].
        destruct Hin as [E|Hin].
        * injection E as <- <-. rewrite I5 by auto. now apply set_each_get.
        * now apply I6.
  Qed.

  Lemma pop_set_effect pop kvs h : NoDup pop -> Forall (fun kv => length (snd kv) = length pop) kvs ->
    let h' := fst (pop_set h pop kvs) in
    snd (pop_set h pop kvs) = true /\ alloc h' = alloc h /\
    (forall r, ~ In r pop -> obj h' r = obj h r) /\
    (forall r, evald (obj h' r) = evald (obj h r)) /\
    (forall r k, ~ In k (map fst kvs) -> vals (obj h' r) k = vals (obj h r) k) /\
    (NoDup (map fst kvs) -> forall k vs i, In (k, vs) kvs -> i < length pop -> vals (obj h' (nth i pop 0)) k = nth_error vs i).
  Proof.
    intros Hnd HF. unfold pop_set. destruct (Nat.eqb_spec (length pop) 0) as [E|E].
    - cbn [fst snd]. repeat split; auto. intros _ k vs i _ Hi. lia.
    - now apply set_keys_effect.
  Qed.

  Lemma fold_pop_set pop kvs h : length pop <> 0 -> Forall (fun kv => length (snd kv) = length pop) kvs ->
    fold_left (fun hb kv => if snd hb : bool then pop_set (fst hb) pop [kv] else hb) kvs (h, true) = set_keys h pop kvs.
  Proof.
    intros Hl. revert h. induction kvs as [|[key vs] kvs IH]; intros h HF; cbn [fold_left set_keys]; auto.
    apply Forall_cons_iff in HF as [E HF]. cbn [snd] in E. unfold pop_set at 2. destruct (Nat.eqb_spec (length pop) 0); [lia|].
    cbn [fst snd set_keys]. rewrite E, Nat.eqb_refl. apply IH; auto.
  Qed.

  Lemma mark_effect keys : forall pop h, 
    let h' := mark h pop keys in
    alloc h' = alloc h /\ (forall r, vals (obj h' r) = vals (obj h r)) /\
    (forall r, ~ In r pop -> obj h' r = obj h r) /\
    (forall r k, In r pop -> (In k (evald (obj h' r)) <-> In k keys \/ In k (evald (obj h r)))).
  Proof.
    induction pop as [|x pop IH]; intros h; cbn [mark]; cbv zeta.
    - repeat split; auto; destruct H.
    - set (h1 := put h x _). destruct (IH h1) as (I1 & I2 & I3 & I4). cbv zeta in *.
      assert (H1 : forall r, vals (obj h1 r) = vals (obj h r)) by (intros r; simpl; destruct (Nat.eqb_spec r x); auto; now subst).
      split; [auto|]. split; [intros r; now rewrite I2|]. split.
      + intros r Hr. simpl in Hr. rewrite I3 by tauto. simpl. destruct (Nat.eqb_spec r x); auto. subst. tauto.
      + intros r k Hr. destruct (in_dec Nat.eq_dec r pop) as [Hin|Hin].
        * rewrite I4 by auto. simpl. destruct (Nat.eqb_spec r x) as [->|]; [|tauto]. cbn [evald]. rewrite in_app_iff. tauto.
        * rewrite I3 by auto. destruct Hr as [->|Hr]; [|tauto]. simpl. rewrite Nat.eqb_refl. cbn [evald]. now rewrite in_app_iff.
  Qed.

  Lemma has_key_iff k l : has_key k l = true <-> In k l.
  Proof.
    unfold has_key. rewrite existsb_exists. split.
    - intros (x & Hx & E). apply String.eqb_eq in E. now subst.
    - intros H. exists k. split; auto. apply String.eqb_refl.
  Qed.
  Lemma lacking_iff h keys r : lacking h keys r = true <-> exists k, In k keys /\ ~ In k (evald (obj h r)).
  Proof.
    unfold lacking. rewrite negb_true_iff. split.
    - intros E. assert (~ (forall x, In x keys -> has_key x (evald (obj h r)) = true)).
      { intros H. apply forallb_forall in H. congruence. }
      induction keys as [|k keys IH]; [exfalso; apply H; intros x []|].
      cbn [forallb] in E. destruct (has_key k (evald (obj h r))) eqn:Ek.
      + cbn [andb] in E. destruct IH as (k' & H1 & H2); auto.
        { intros H'. apply H. intros x [->|Hx]; auto. }
        exists k'. split; [right; auto|auto].
      + exists k. split; [left; auto|]. intros Hin. apply has_key_iff in Hin. congruence.
    - intros (k & H1 & H2). destruct (forallb _ _) eqn:E; auto. rewrite forallb_forall in E. apply E, has_key_iff in H1. tauto.
  Qed.
End Pop.
