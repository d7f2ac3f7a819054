(** * C48: cached problem quantities *)
From Coq Require Import List Arith Bool ZArith QArith Lia Lqa Permutation Sorted.
From Verif Require Import ListAux M_Survival M_RefDirs2 M_Cache S_Decomp Thm_Decomp Thm_RefDirs2.
Import ListNotations.
Local Open Scope nat_scope.

(** arguments of the first call in the history that satisfies [p] *)
Fixpoint first_args {A} (p : meth -> bool) (h : list (meth * (bool * bool) * A)) : option A :=
  match h with [] => None | (m, _, a) :: h => if p m then Some a else first_args p h end.
Definition uses_front (m : meth) : bool := match m with MPS => false | _ => true end.
Definition uses_set (m : meth) : bool := match m with MPS => true | _ => false end.
Definition default_flags {A} (h : list (meth * (bool * bool) * A)) : Prop := Forall (fun c => snd (fst c) = (true, true)) h.
Definition vec_of (f : list Q -> Q) (pf : option (list (list Q))) : option (option (list Q)) := match pf with None => Some None | Some pf => option_map Some (colwise f pf) end.

Section S.
  Variables (A : Type) (calc_pf calc_ps : nat -> A -> option (list (list Q))) (qsort : list Q -> list nat).
  Notation run_ := (run A calc_pf calc_ps qsort). Notation call_ := (call A calc_pf calc_ps qsort).
  Let PF a := option_map (sort2 qsort) (calc_pf 0 a).
  Let PS a := calc_ps 0 a.
  (** reachable with default flags after the front (set) was first requested with arguments a0 (a1) *)
  Definition st_ok (a0 a1 : option A) (s : prob) : Prop :=
    match a0 with
    | None => c_pf s = None /\ n_pf s = 0 /\ c_ideal s = None /\ c_nadir s = None
    | Some a => c_pf s = Some (PF a) /\ n_pf s = 1 /\
        (c_ideal s = None \/ (c_ideal s = vec_of qmin_list (PF a) /\ c_ideal s <> None)) /\ (c_nadir s = None \/ (c_nadir s = vec_of q_max_list (PF a) /\ c_nadir s <> None))
    end /\
    match a1 with None => c_ps s = None /\ n_ps s = 0 | Some a => c_ps s = Some (PS a) /\ n_ps s = 1 end.
  Definition expected (a0 a1 : option A) (m : meth) (r : res) : Prop :=
    match m with
    | MPF => exists a, a0 = Some a /\ r = RMat (Some (PF a))
    | MPS => exists a, a1 = Some a /\ r = RMat (Some (PS a))
    | MIdeal => exists a, a0 = Some a /\ r = RVec (vec_of qmin_list (PF a))
    | MNadir => exists a, a0 = Some a /\ r = RVec (vec_of q_max_list (PF a))
    end.
  Lemma vec_of_cases f pf : vec_of f pf = None \/ exists v, vec_of f pf = Some v.
  Proof using. destruct (vec_of f pf); eauto. Qed.
  Lemma call_ok a0 a1 s m a : st_ok a0 a1 s ->
    let a0' := match a0 with Some x => Some x | None => if uses_front m then Some a else None end in
    let a1' := match a1 with Some x => Some x | None => if uses_set m then Some a else None end in
    let '(r, s') := call_ (m, (true, true), a) s in st_ok a0' a1' s' /\ expected a0' a1' m r.
  Proof using.
    intros [H0 H1]. destruct s as [cpf cps cid cna np ns]. cbn [c_pf c_ps c_ideal c_nadir n_pf n_ps] in *.
    destruct m; cbn [call uses_front uses_set].
    - unfold pareto_front, wrapper. cbn [c_pf]. destruct a0 as [x|].
      + destruct H0 as (-> & -> & Hi & Hn). cbn [expected]. split; [split|exists x]; cbn; auto. destruct a1; auto.
      + destruct H0 as (-> & -> & -> & ->). cbn. split; [split|exists a; split; auto]; cbn; auto. destruct a1; auto.
    - unfold pareto_set, wrapper. cbn [c_ps]. destruct a1 as [x|].
      + destruct H1 as (-> & ->). split; [split|exists x]; cbn; auto. destruct a0; auto.
      + destruct H1 as (-> & ->). cbn. split; [split|exists a; split; auto]; cbn; auto. destruct a0; auto.
    - unfold ideal_point, wrapper. cbn [c_ideal]. destruct a0 as [x|].
      + destruct H0 as (-> & -> & Hi & Hn). destruct cid as [v|].
        * destruct Hi as [Hi|[Hi _]]; [discriminate|]. split; [split|exists x; split; auto; now rewrite Hi]; cbn; [|destruct a1; auto]. repeat split; auto. right. split; [auto|discriminate].
        * unfold of_front, pareto_front, wrapper. cbn [c_pf]. change (match PF x with Some pf => option_map Some (colwise qmin_list pf) | None => Some None end) with (vec_of qmin_list (PF x)).
          destruct (vec_of_cases qmin_list (PF x)) as [E|[v E]]; rewrite E; (split; [split|exists x; split; auto; now rewrite E]); cbn; try (destruct a1; now auto); repeat split; auto.
          right. split; [auto|discriminate].
      + destruct H0 as (-> & -> & -> & ->). unfold of_front, pareto_front, wrapper, pareto_front_. cbn [c_pf n_pf c_ps c_ideal c_nadir n_ps]. fold (PF a).
        change (match PF a with Some pf => option_map Some (colwise qmin_list pf) | None => Some None end) with (vec_of qmin_list (PF a)).
        destruct (vec_of_cases qmin_list (PF a)) as [E|[v E]]; rewrite E; (split; [split|exists a; split; auto; now rewrite E]); cbn; try (destruct a1; now auto); repeat split; auto.
        right. split; [auto|discriminate].
    - unfold nadir_point, wrapper. cbn [c_nadir]. destruct a0 as [x|].
      + destruct H0 as (-> & -> & Hi & Hn). destruct cna as [v|].
        * destruct Hn as [Hn|[Hn _]]; [discriminate|]. split; [split|exists x; split; auto; now rewrite Hn]; cbn; [|destruct a1; auto]. repeat split; auto. right. split; [auto|discriminate].
        * unfold of_front, pareto_front, wrapper. cbn [c_pf]. change (match PF x with Some pf => option_map Some (colwise q_max_list pf) | None => Some None end) with (vec_of q_max_list (PF x)).
          destruct (vec_of_cases q_max_list (PF x)) as [E|[v E]]; rewrite E; (split; [split|exists x; split; auto; now rewrite E]); cbn; try (destruct a1; now auto); repeat split; auto.
          right. split; [auto|discriminate].
      + destruct H0 as (-> & -> & -> & ->). unfold of_front, pareto_front, wrapper, pareto_front_. cbn [c_pf n_pf c_ps c_ideal c_nadir n_ps]. fold (PF a).
        change (match PF a with Some pf => option_map Some (colwise q_max_list pf) | None => Some None end) with (vec_of q_max_list (PF a)).
        destruct (vec_of_cases q_max_list (PF a)) as [E|[v E]]; rewrite E; (split; [split|exists a; split; auto; now rewrite E]); cbn; try (destruct a1; now auto); repeat split; auto.
        right. split; [auto|discriminate].
  Qed.
  Lemma run_ok h : forall a0 a1 s, default_flags h -> st_ok a0 a1 s ->
    let a0' := match a0 with Some x => Some x | None => first_args uses_front h end in
    let a1' := match a1 with Some x => Some x | None => first_args uses_set h end in
    let '(rs, s') := run_ h s in st_ok a0' a1' s' /\ Forall2 (fun c r => expected a0' a1' (fst (fst c)) r) h rs.
  Proof using.
    induction h as [|[[m fl] a] h IH]; intros a0 a1 s HD Hs; cbn [run first_args].
    - split; [destruct a0, a1; exact Hs|constructor].
    - inversion HD as [|? ? Hfl HD']; subst. cbn in Hfl. subst fl. pose proof (call_ok a0 a1 s m a Hs) as HC. destruct (call_ (m, (true, true), a) s) as [r s1]. destruct HC as [HC1 HC2].
      specialize (IH _ _ s1 HD' HC1). destruct (run_ h s1) as [rs s2]. destruct IH as [IH1 IH2].
      assert (E0 : match a0 with Some x => Some x | None => if uses_front m then Some a else first_args uses_front h end = match match a0 with Some x => Some x | None => if uses_front m then Some a else None end with Some x => Some x | None => first_args uses_front h end) by (destruct a0, (uses_front m); auto).
      assert (E1 : match a1 with Some x => Some x | None => if uses_set m then Some a else first_args uses_set h end = match match a1 with Some x => Some x | None => if uses_set m then Some a else None end with Some x => Some x | None => first_args uses_set h end) by (destruct a1, (uses_set m); auto).
      rewrite E0, E1. split; auto. constructor; auto. cbn [fst]. revert HC2. clear. destruct a0, a1, m; cbn; auto; intros (y & Hy & E); try discriminate; injection Hy as <-; eauto.
  Qed.
End S.

(** C48: in every sequence of calls with the default flags on one problem, the front is computed at most once - with the arguments of the first call that
    needs it - and so is the set; every call returns that first front or set, and the column minima or maxima of that front (an empty front raises) *)
Theorem C48_first_result : forall A calc_pf calc_ps qsort h rs s, default_flags h -> run A calc_pf calc_ps qsort h fresh = (rs, s) ->
  n_pf s <= 1 /\ n_ps s <= 1 /\ length rs = length h /\
  forall i m fl a r, nth_error h i = Some (m, fl, a) -> nth_error rs i = Some r ->
    let front := option_map (sort2 qsort) (match first_args uses_front h with Some a0 => calc_pf 0 a0 | None => None end) in
    let set := match first_args uses_set h with Some a1 => calc_ps 0 a1 | None => None end in
    match m with
    | MPF => r = RMat (Some front)
    | MPS => r = RMat (Some set)
    | MIdeal => r = RVec (vec_of qmin_list front)
    | MNadir => r = RVec (vec_of q_max_list front)
    end.
Proof.
  intros A calc_pf calc_ps qsort h rs s HD HR.
  pose proof (run_ok A calc_pf calc_ps qsort h None None fresh HD) as H. specialize (H ltac:(split; cbn; auto)). rewrite HR in H. cbn beta iota zeta in H. destruct H as [[H0 H1] HF].
  split; [destruct (first_args uses_front h); [destruct H0 as (_ & -> & _); auto|destruct H0 as (_ & -> & _); auto]|].
  split; [destruct (first_args uses_set h); destruct H1 as [_ ->]; auto|].
  split; [symmetry; eapply Forall2_length; eauto|].
  intros i m fl a r Hh Hr. assert (HE : expected A calc_pf calc_ps qsort (first_args uses_front h) (first_args uses_set h) m r).
  { clear -HF Hh Hr. revert HF. generalize (first_args uses_front h) (first_args uses_set h). intros x0 x1 HF. revert i Hh Hr. induction HF as [|c r' h' rs' Hc HF IH]; intros [|i] Hh Hr; try discriminate; cbn in *; [|eapply IH; eauto]. injection Hh as ->. injection Hr as ->. exact Hc. }
  destruct m; cbn in HE; destruct HE as (x & -> & ->); reflexivity.
Qed.
Print Assumptions C48_first_result.

(** what the flags do, in any state: an entry is returned unchanged; with use_cache=False, or without an entry, the front is computed; it is stored
    exactly when set_cache is true *)
Theorem C48_flags : forall A calc_pf qsort use set a s,
  (forall v, use = true -> c_pf s = Some v -> pareto_front A calc_pf qsort use set a s = (Some v, s)) /\
  ((use = false \/ c_pf s = None) -> exists s', let v := option_map (sort2 qsort) (calc_pf (n_pf s) a) in
     pareto_front A calc_pf qsort use set a s = (Some v, s') /\ n_pf s' = S (n_pf s) /\ c_pf s' = (if set then Some v else c_pf s)).
Proof.
  intros A calc_pf qsort use set a s. unfold pareto_front, wrapper. split.
  - intros v -> ->. reflexivity.
  - intros H. unfold pareto_front_. destruct use, (c_pf s) eqn:E; try (destruct H; congruence); cbn [fst snd]; eexists; (split; [reflexivity|]); destruct set; auto.
Qed.
Print Assumptions C48_flags.

(** the claim that use_cache=False recomputes the nadir point from a new front: the flag does not reach the nested call *)
Theorem C48_bypass_refuted :
  ~ (forall (calc_pf : nat -> unit -> option (list (list Q))) qsort s v, fst (nadir_point unit calc_pf qsort false true tt s) = Some v -> Some v = vec_of q_max_list (option_map (sort2 qsort) (calc_pf (n_pf s) tt))).
Proof.
  intros H. set (calc := fun (k : nat) (_ : unit) => Some [[inject_Z (Z.of_nat k)]]). set (s := snd (pareto_front unit calc (fun _ => []) true true tt fresh)).
  specialize (H calc (fun _ => []) s (Some [0%Q]) ltac:(vm_compute; reflexivity)). vm_compute in H. discriminate.
Qed.
Print Assumptions C48_bypass_refuted.

(** what the front, ideal and nadir are: the calculated front, reordered by its first column if it has two columns; column minima and maxima *)
Theorem C48_values : forall (qsort : list Q -> list nat) pf m, (forall l, Permutation (qsort l) (seq 0 (length l)) /\ Sorted (fun i j => (nth i l 0 <= nth j l 0)%Q) (qsort l)) ->
  Forall (fun r => length r = m) pf ->
  Permutation (sort2 qsort pf) pf /\ (m = 2 -> Sorted (fun x y => (nth 0 x 0 <= nth 0 y 0)%Q) (sort2 qsort pf)) /\ (m <> 2 -> sort2 qsort pf = pf) /\
  (pf <> [] -> exists lo hi, colwise qmin_list pf = Some lo /\ colwise q_max_list pf = Some hi /\ length lo = m /\ length hi = m /\
     forall j, j < m -> is_max (length pf) (fun i => nth j (nth i pf []) 0)%Q (nth j hi 0%Q) /\ is_max (length pf) (fun i => - nth j (nth i pf []) 0)%Q (- nth j lo 0)%Q).
Proof.
  intros qsort pf m HQ HF. split; [|split; [|split]].
  - unfold sort2. destruct pf as [|r pf]; auto. destruct (length r =? 2); auto. destruct (HQ (map (fun r => nth 0 r 0%Q) (r :: pf))) as [HP _]. rewrite map_length in HP.
    transitivity (gather [] (r :: pf) (seq 0 (length (r :: pf)))); [unfold gather; apply Permutation_map, HP|]. rewrite gather_seq. auto.
  - intros ->. unfold sort2. destruct pf as [|r pf]; [constructor|]. inversion HF; subst. replace (length r =? 2) with true by (symmetry; now apply Nat.eqb_eq).
    destruct (HQ (map (fun r => nth 0 r 0%Q) (r :: pf))) as [HP HS]. unfold gather.
    assert (HB : Forall (fun i => i < length (r :: pf)) (qsort (map (fun r => nth 0 r 0%Q) (r :: pf)))) by (apply Forall_forall; intros i Hi; apply (Permutation_in _ HP) in Hi; rewrite map_length in Hi; apply in_seq in Hi; lia).
    revert HS HB. generalize (qsort (map (fun r => nth 0 r 0%Q) (r :: pf))). intros I0 HS HB. induction I0 as [|i I0 IH]; cbn [map]; constructor.
    + apply IH; [now inversion HS|now inversion HB].
    + inversion HS; subst. inversion HB; subst. destruct I0 as [|j I0]; cbn [map]; constructor. inversion H4; subst. inversion H6; subst.
      assert (HN : forall k, k < length (r :: pf) -> nth k (map (fun r => nth 0 r 0%Q) (r :: pf)) 0%Q = nth 0 (nth k (r :: pf) []) 0%Q).
      { intros k Hk. rewrite (nth_indep _ 0%Q (nth 0 (@nil Q) 0%Q)) by (now rewrite map_length). apply (map_nth (fun r => nth 0 r 0%Q)). }
      rewrite !HN in H0 by auto. exact H0.
  - intros Hm. unfold sort2. destruct pf as [|r pf]; auto. inversion HF; subst. destruct (length r =? 2) eqn:E; auto. apply Nat.eqb_eq in E. congruence.
  - intros Hne. destruct pf as [|r pf]; [congruence|]. inversion HF as [|? ? Hr HF']; subst. unfold colwise. do 2 eexists. split; [reflexivity|]. split; [reflexivity|]. rewrite !map_length, !seq_length. split; auto. split; auto.
    intros j Hj.
    assert (HC : forall i, i < length (r :: pf) -> nth i (column j (r :: pf)) 0%Q = nth j (nth i (r :: pf) []) 0%Q).
    { intros i Hi. unfold column. rewrite (nth_indep _ 0%Q (nth j (@nil Q) 0%Q)) by (now rewrite map_length). apply (map_nth (fun r => nth j r 0%Q)). }
    split.
    + rewrite (nth_indep _ 0%Q (q_max_list (column 0 (r :: pf)))) by (now rewrite map_length, seq_length). rewrite (map_nth (fun j => q_max_list (column j (r :: pf)))), seq_nth by auto. cbn [Nat.add].
      apply q_max_is_max; [unfold column; apply map_length|cbn [length]; lia|]. intros i Hi. rewrite HC by auto. reflexivity.
    + rewrite (nth_indep _ 0%Q (qmin_list (column 0 (r :: pf)))) by (now rewrite map_length, seq_length). rewrite (map_nth (fun j => qmin_list (column j (r :: pf)))), seq_nth by auto. cbn [Nat.add].
      assert (HM : forall l x, (exists i, i < S (length l) /\ fold_left qmin l x = nth i (x :: l) 0%Q) /\ forall i, i < S (length l) -> (fold_left qmin l x <= nth i (x :: l) 0)%Q).
      { induction l as [|y l IH]; intros x; cbn [fold_left length].
        - split; [exists 0; split; [lia|reflexivity]|]. intros [|i] Hi; [apply Qle_refl|lia].
        - destruct (IH (qmin x y)) as [(i & Hi & E) HB]. unfold qmin in *. destruct (Qle_bool x y) eqn:Exy.
          + apply Qle_bool_iff in Exy. split; [destruct i as [|i]; [exists 0; split; [lia|exact E]|exists (S (S i)); split; [lia|exact E]]|].
            intros [|[|k]] Hk; [apply (HB 0); lia| |apply (HB (S k)); lia]. specialize (HB 0 ltac:(lia)). cbn [nth] in *. lra.
          + assert (Hyx : (y <= x)%Q) by (destruct (Qlt_le_dec x y) as [Hl|Hl]; auto; assert (Qle_bool x y = true) by (apply Qle_bool_iff; lra); congruence).
            split; [exists (S i); split; [lia|exact E]|]. intros [|k] Hk; [specialize (HB 0 ltac:(lia)); cbn [nth] in *; lra|]. apply (HB k). lia. }
      assert (HL : length (column j (r :: pf)) = length (r :: pf)) by (unfold column; apply map_length).
      destruct (column j (r :: pf)) as [|x l] eqn:EC; [discriminate|]. cbn [qmin_list]. destruct (HM l x) as [(i & Hi & E) HB]. injection HL as HL. split.
      * exists i. split; [cbn [length]; lia|]. rewrite E, <- HC by (cbn [length]; lia). reflexivity.
      * intros i' Hi'. rewrite <- HC by auto. specialize (HB i' ltac:(cbn [length] in Hi'; lia)). lra.
Qed.
Print Assumptions C48_values.

Example C48_case : let calc := fun (k : nat) (a : nat) => Some [[1; inject_Z (Z.of_nat (a + k))]; [0; 2]]%Q in
  exists rs s, run nat calc calc (fun _ => [1; 0]) [(MNadir, (true, true), 7); (MPF, (true, true), 9); (MPS, (true, true), 1)] fresh = (rs, s) /\
  default_flags [(MNadir, (true, true), 7); (MPF, (true, true), 9); (MPS, (true, true), 1)] /\ n_pf s = 1 /\ nth 1 rs (RVec None) = RMat (Some (Some [[0; 2]; [1; 7]]%Q)).
Proof. do 2 eexists. split; [vm_compute; reflexivity|]. repeat split. repeat constructor. Qed.
