(** * np.argsort on floats: contract and an executable instance that satisfies it for every input (NaN last) *)
From Coq Require Import List Arith Lia Bool Permutation.
From Verif Require Import Flt ListAux.
Import ListNotations.

(** contract of [np.argsort(keys)] (any kind): a permutation of the indices, no later key smaller than an earlier one *)
Definition asort_ok (asort : list flt -> list nat) : Prop := forall keys, is_argsort fltb f_nan keys (asort keys).
(** contract of a descending argsort *)
Definition dsort_ok (dsort : list flt -> list nat) : Prop := forall keys, is_argsort (fun x y => fltb y x) f_nan keys (dsort keys).

(** numpy's order on floats: NaN after everything else *)
Definition nplt (x y : flt) : bool := fltb x y || (negb (isnan x) && isnan y).
Definition np_argsort (keys : list flt) : list nat := argsort nplt f_nan keys.

Lemma nan_flt_l x y : isnan x = true -> fltb x y = false.
Proof. intros H. destruct (fltb x y) eqn:E; auto. apply flt_nonnan_l in E. congruence. Qed.
Lemma nan_flt_r x y : isnan y = true -> fltb x y = false.
Proof. intros H. destruct (fltb x y) eqn:E; auto. apply flt_nonnan_r in E. congruence. Qed.

Lemma nplt_asym x y : nplt x y = true -> nplt y x = false.
Proof.
  unfold nplt. rewrite orb_true_iff, andb_true_iff, negb_true_iff. intros [H|[H1 H2]].
  - rewrite (flt_asym _ _ H), (flt_nonnan_r _ _ H), (flt_nonnan_l _ _ H). reflexivity.
  - rewrite (nan_flt_l _ _ H2), H1, H2. reflexivity.
Qed.

Lemma nplt_false_iff x y : nplt x y = false <-> isnan x = true \/ (isnan y = false /\ fleb y x = true).
Proof.
  unfold nplt. destruct (isnan x) eqn:Ex, (isnan y) eqn:Ey; simpl; rewrite ?orb_false_r, ?orb_true_r.
  - split; auto. intros _. now apply nan_flt_l.
  - split; auto. intros _. now apply nan_flt_l.
  - split; [discriminate|]. intros [H|[H _]]; discriminate.
  - split; [intros H; right; split; auto; now apply nlt_le | intros [H|[_ H]]; [discriminate|now apply fle_not_lt]].
Qed.

Lemma nplt_nlt_trans x y z : nplt y x = false -> nplt z y = false -> nplt z x = false.
Proof.
  rewrite !nplt_false_iff. intros [H1|[H1 H1']] [H2|[H2 H2']]; auto.
  - congruence.
  - right. split; auto. eapply fle_trans; eauto.
Qed.

Lemma np_argsort_ok : asort_ok np_argsort.
Proof.
  intros keys. destruct (argsort_is_argsort nplt f_nan keys nplt_asym) as [H1 H2].
  - intros. eapply nplt_nlt_trans; eauto.
  - split; auto. intros p q Hpq Hq. specialize (H2 p q Hpq Hq). unfold nplt in H2. now apply orb_false_iff in H2 as [H2 _].
Qed.

(** [np.argsort(..)[::-1]] *)
Lemma rev_argsort {A} (lt : A -> A -> bool) d keys I :
  is_argsort lt d keys I -> is_argsort (fun x y => lt y x) d keys (rev I).
Proof.
  intros [HP HS]. split; [rewrite <- HP; symmetry; apply Permutation_rev|].
  intros p q Hpq Hq. rewrite rev_length in Hq. rewrite !rev_nth by lia. apply HS; lia.
Qed.

(** sorting after shuffling: [P[np.argsort(A[P])]] *)
Lemma shuffled_argsort {A} (lt : A -> A -> bool) d keys P I :
  Permutation P (seq 0 (length keys)) -> is_argsort lt d (gather d keys P) I ->
  is_argsort lt d keys (gather 0 P I).
Proof.
  intros HP [HI HS]. rewrite length_gather in HI. pose proof (perm_seq_length _ _ HP) as HL. rewrite HL in HI.
  pose proof (perm_seq_length _ _ HI) as HLI. split.
  - rewrite <- HP. transitivity (gather 0 P (seq 0 (length P))).
    + apply Permutation_map. now rewrite HL.
    + now rewrite gather_seq.
  - intros p q Hpq Hq. rewrite length_gather in Hq. rewrite !nth_gather by lia.
    specialize (HS p q Hpq Hq). rewrite !nth_gather in HS.
    + exact HS.
    + rewrite HL. apply (perm_seq_In _ _ _ HI), nth_In. lia.
    + rewrite HL. apply (perm_seq_In _ _ _ HI), nth_In. lia.
Qed.
