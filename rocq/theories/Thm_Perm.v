(** * C21 (order crossover), C22 (edge recombination), C23 (inversion mutation) *)
From Coq Require Import List Arith Bool ZArith Lia Permutation.
From Verif Require Import ListAux M_Perm S_Perm P_Perm P_Erx.
Import ListNotations.
Local Open Scope nat_scope.

(** C21: for every segment that can be drawn, the child is a permutation of the receiver, carries the donor's values on the segment,
    and the remaining positions (left to right) list the receiver's remaining values in receiver order - rotated to begin at the segment
    start when shifting. *)
Theorem C21_ox : forall receiver donor start stop shift,
  Permutation receiver donor -> NoDup receiver -> start <= stop < length receiver ->
  let child := ox receiver donor start stop shift in
  Permutation child receiver /\
  (forall p, start <= p <= stop -> nth p child 0%Z = nth p donor 0%Z) /\
  firstn start child ++ skipn (stop + 1) child =
    filter (fun v => if in_dec Z.eq_dec v (firstn (stop + 1 - start) (skipn start donor)) then false else true)
           (if shift then skipn start receiver ++ firstn start receiver else receiver).
Proof.
  intros receiver donor start stop shift HP HN Hs. destruct (ox_spec receiver donor start stop shift HP HN Hs) as (H1 & H2 & H3).
  cbn zeta. repeat split; auto. rewrite H3. unfold ox_order. apply filter_ext. intro v.
  unfold slice. destruct (in_dec Z.eq_dec v _) as [Hi|Hi]; [apply memZ_In in Hi|apply memZ_nIn in Hi]; rewrite Hi; auto.
Qed.

(** both children of the operator, for every drawn sequence *)
Theorem C21_operator : forall shift a b start stop,
  Permutation a b -> NoDup a -> valid_seq (length a) start stop ->
  Permutation (fst (order_crossover shift a b start stop)) a /\ Permutation (snd (order_crossover shift a b start stop)) a.
Proof.
  intros shift a b start stop HP HN [H1 H2]. split; simpl.
  - apply C21_ox; auto; lia.
  - etransitivity; [|symmetry; apply HP]. apply C21_ox; auto using Permutation_sym.
    + eapply Permutation_NoDup; eauto.
    + rewrite <- (Permutation_length HP). lia.
Qed.

(** C22: never fails; a permutation; every step follows an edge of a parent while one is left, and to a value with the fewest open edges *)
Theorem C22_erx : forall a b (rnd : nat -> nat),
  Permutation a b -> NoDup a -> a <> [] ->
  exists child, erx a b rnd = Some child /\ Permutation child a /\
    forall k, S k < length child ->
      let cur := nth k child 0%Z in
      let nxt := nth (S k) child 0%Z in
      let open w u := In u a /\ ~ In u (firstn (S k) child) /\ edge a b w u in
      (exists u, open cur u) ->
      open cur nxt /\
      forall w n1 n2, open cur w -> counts (open nxt) n1 -> counts (open w) n2 -> n1 <= n2.
Proof. intros a b rnd HP HN Ha. exact (erx_spec a b rnd HP HN Ha). Qed.

(** C23 *)
Theorem C23_inversion : forall (A : Type) (d : A) y start stop, start <= stop < length y ->
  let m := inversion_mutation y start stop in
  Permutation m y /\ length m = length y /\
  (forall p, start <= p <= stop -> nth p m d = nth (start + stop - p) y d) /\
  (forall p, p < start \/ stop < p -> nth p m d = nth p y d) /\
  inversion_mutation m start stop = y.
Proof.
  intros A d y start stop H. cbn zeta. repeat split.
  - apply inversion_perm; lia.
  - apply Permutation_length, inversion_perm; lia.
  - intros p Hp. rewrite inversion_nth by auto.
    replace (start <=? p) with true by (symmetry; apply Nat.leb_le; lia).
    replace (p <=? stop) with true by (symmetry; apply Nat.leb_le; lia). auto.
  - intros p Hp. rewrite inversion_nth by auto.
    destruct Hp; [replace (start <=? p) with false by (symmetry; apply Nat.leb_gt; lia)|
                  replace (p <=? stop) with false by (symmetry; apply Nat.leb_gt; lia); rewrite andb_false_r]; auto.
  - apply inversion_involutive; auto.
Qed.

Local Open Scope Z_scope.
Example C21_example :
  ox [1;2;3;4;5;6] [3;6;2;1;5;4] 1 3 false = [3;6;2;1;4;5] /\ ox [1;2;3;4;5;6] [3;6;2;1;5;4] 1 3 true = [3;6;2;1;4;5].
Proof. split; reflexivity. Qed.
Example C21_example2 : ox [1;2;3;4;5;6] [6;5;4;3;2;1] 2 3 true = [5;6;4;3;1;2].
Proof. reflexivity. Qed.
Example C22_example : erx [0;1;2;3;4] [2;0;4;1;3] (fun k => k) = Some [0;2;1;3;4].
Proof. vm_compute. reflexivity. Qed.
Example C22_example2 : erx [0;1;2;3;4] [2;0;4;1;3] (fun k => (3 + 7 * k)%nat) = Some [3;2;0;4;1].
Proof. vm_compute. reflexivity. Qed.
Example C23_example : inversion_mutation [1;2;3;4;5] 1 3 = [1;4;3;2;5].
Proof. reflexivity. Qed.

Print Assumptions C21_ox. Print Assumptions C21_operator. Print Assumptions C22_erx. Print Assumptions C23_inversion.
