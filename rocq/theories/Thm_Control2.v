(** * C119: the values drawn and evolved by parameter control stay in the domains of the parameters *)
From Coq Require Import String List Arith Bool ZArith QArith Lia Lqa Permutation.
From Verif Require Import ListAux P_Perm P_Cross M_Params P_Params M_Mixed S_Mixed Thm_Mixed Thm_Mixed2 Thm_Mixed3 M_Selection S_Selection P_Selection Thm_Selection M_Control Thm_Control.
Import ListNotations.
Local Open Scope nat_scope.

(** ** specification *)
(** what numpy draws: uniform numbers in [0, 1), integers and positions below the size *)
Definition pdraws_ok (ps : vars) (r : pdraws) : Prop :=
  (forall i k, 0 <= p_u r i k < 1)%Q /\
  forall i k, i < length ps -> match snd (nth i ps dvar) with MInteger lb ub => (Z.of_nat (p_j r i k) < ub + 1 - lb)%Z | MChoice options => p_j r i k < length options | _ => True end.
Definition edraws_ok (ps : vars) (n_pop : nat) (e : edraws) : Prop :=
  pdraws_ok ps (e_fill e) /\ (forall k, Permutation (e_perm e k) (seq 0 n_pop)) /\ picks_ok (e_ops e).
(** for every parameter: no value, or one in its domain *)
Definition admissible (ps : vars) (x : dict) : Prop := forall kv, In kv ps -> is_missing (data_get x (fst kv)) = true \/ in_dom (snd kv) (data_get x (fst kv)).
(** all values are in the domain of their parameter *)
Definition arrays_in (ps : vars) (n : nat) (vals : pvals) : Prop := arrays ps n vals /\ forall kv k, In kv ps -> k < n -> in_dom (snd kv) (value vals (fst kv) k).

(** ** random values *)
Lemma random_get ps N r kv : NoDup (map fst ps) -> In kv ps -> exists i, i < length ps /\ nth i ps dvar = kv /\
  dget (random_control ps N r) (fst kv) = Some (map (fun k => sample_var (snd kv) (p_u r i k) (p_j r i k)) (seq 0 N)).
Proof.
  intros HN Hkv. apply (In_nth _ _ dvar) in Hkv as (i & Hi & E). exists i. split; auto. split; auto. apply In_dget.
  - unfold random_control. rewrite map_map. cbn [fst]. now rewrite map_fst_nth.
  - unfold random_control. apply in_map_iff. exists i. rewrite E. split; auto. apply in_seq. lia.
Qed.
(** C119: RandomParameterControl: an array of n values for every parameter, all in its domain *)
Theorem C119_random : forall ps n r, vars_ok ps -> pdraws_ok ps r -> arrays_in ps n (random_control ps n r).
Proof.
  intros ps n r [HN HV] [Hu Hj]. split.
  - split; [unfold random_control; rewrite map_map; cbn [fst]; apply map_fst_nth|]. apply Forall_forall. intros kv H. apply in_map_iff in H as (i & <- & _). cbn. now rewrite map_length, seq_length.
  - intros kv k Hkv Hk. destruct (random_get ps n r kv HN Hkv) as (i & Hi & E & G). unfold value. rewrite G, nth_map_seq0 by auto. rewrite Forall_forall in HV. specialize (Hj i k Hi). rewrite E in Hj. apply sample_var_in; auto.
Qed.

(** ** missing values are filled in *)
Lemma data_get_dset x name v name' : data_get (dset x name v) name' = if String.eqb name name' then v else data_get x name'.
Proof. unfold data_get. rewrite dget_dset. destruct (String.eqb name name'); auto. Qed.
Lemma fill_one_spec name v u j : forall pop q, length (fill_one name v u j q pop) = length pop /\
  forall p, p < length pop -> (forall name', name' <> name -> dget (nth p (fill_one name v u j q pop) []) name' = dget (nth p pop []) name') /\
    ((is_missing (data_get (nth p pop []) name) = false /\ nth p (fill_one name v u j q pop) [] = nth p pop []) \/
     (is_missing (data_get (nth p pop []) name) = true /\ exists q', dget (nth p (fill_one name v u j q pop) []) name = Some (sample_var v (u q') (j q')))).
Proof.
  induction pop as [|x pop IH]; intros q; [split; [auto|intros; cbn in *; lia]|]. cbn [fill_one]. destruct (is_missing (data_get x name)) eqn:E.
  - destruct (IH (S q)) as [L H]. split; [cbn; lia|]. intros [|p] Hp; cbn [nth]; [|apply H; cbn in Hp; lia]. split.
    + intros name' Hn. rewrite dget_dset. destruct (String.eqb_spec name name'); congruence.
    + right. split; auto. exists q. now rewrite dget_dset, String.eqb_refl.
  - destruct (IH q) as [L H]. split; [cbn; lia|]. intros [|p] Hp; cbn [nth]; [|apply H; cbn in Hp; lia]. split; auto.
Qed.
Section Fill.
  Variables (ps : vars) (r : pdraws).
  Hypothesis HN : NoDup (map fst ps).
  Let step := fun (pop : list dict) i => fill_one (fst (nth i ps dvar)) (snd (nth i ps dvar)) (p_u r i) (p_j r i) 0 pop.
  Lemma fill_upto pop : forall m, m <= length ps -> let pop' := fold_left step (seq 0 m) pop in length pop' = length pop /\
    forall p, p < length pop ->
      (forall name, (forall i, i < m -> fst (nth i ps dvar) <> name) -> dget (nth p pop' []) name = dget (nth p pop []) name) /\
      forall i, i < m -> let name := fst (nth i ps dvar) in
        (is_missing (data_get (nth p pop []) name) = false /\ dget (nth p pop' []) name = dget (nth p pop []) name) \/
        (is_missing (data_get (nth p pop []) name) = true /\ exists q, dget (nth p pop' []) name = Some (sample_var (snd (nth i ps dvar)) (p_u r i q) (p_j r i q))).
  Proof.
    induction m as [|m IH]; intros Hm; cbn zeta in *.
    - cbn. split; auto. intros p Hp. split; auto. intros; lia.
    - destruct (IH ltac:(lia)) as [L H]. rewrite seq_S, fold_left_app. cbn [fold_left Nat.add]. set (pop1 := fold_left step (seq 0 m) pop) in *. assert (Es : step pop1 m = fill_one (fst (nth m ps dvar)) (snd (nth m ps dvar)) (p_u r m) (p_j r m) 0 pop1) by reflexivity. rewrite Es.
      destruct (fill_one_spec (fst (nth m ps dvar)) (snd (nth m ps dvar)) (p_u r m) (p_j r m) pop1 0) as [L1 H1]. split; [lia|]. intros p Hp. destruct (H p Hp) as [Ha Hb]. destruct (H1 p ltac:(lia)) as [H1a H1b].
      assert (Hfst : forall i, i < m -> fst (nth i ps dvar) <> fst (nth m ps dvar)).
      { intros i Hi C. rewrite <- !(map_nth fst) in C. apply NoDup_nth in C; auto; try (rewrite map_length; lia). lia. }
      split.
      + intros name Hname. rewrite H1a by (intros C; subst name; apply (Hname m); auto; lia). apply Ha. intros i Hi. apply Hname. lia.
      + intros i Hi. destruct (Nat.eq_dec i m) as [->|C].
        * assert (E : data_get (nth p pop1 []) (fst (nth m ps dvar)) = data_get (nth p pop []) (fst (nth m ps dvar))) by (unfold data_get; rewrite Ha; auto).
          rewrite E in H1b. destruct H1b as [[B1 B2]|[B1 (q & B2)]]; [left|right]; split; auto; [rewrite B2; apply Ha; auto|eauto].
        * rewrite H1a by (apply Hfst; lia). apply Hb. lia.
  Qed.
End Fill.
(** C119: EvolutionaryParameterControl fills in the missing values of the population in place and changes nothing else: where a parameter has a value it keeps it, where it has none it gets one of its domain *)
Theorem C119_filled : forall ps r pop, vars_ok ps -> pdraws_ok ps r -> length (fill_missing ps r pop) = length pop /\
  forall p, p < length pop -> let x := nth p pop [] in let x' := nth p (fill_missing ps r pop) [] in
    (forall name, ~ In name (map fst ps) -> dget x' name = dget x name) /\
    forall kv, In kv ps -> if is_missing (data_get x (fst kv)) then exists v, dget x' (fst kv) = Some v /\ in_dom (snd kv) v else dget x' (fst kv) = dget x (fst kv).
Proof.
  intros ps r pop [HN HV] [Hu Hj]. destruct (fill_upto ps r HN pop (length ps) (le_n _)) as [L H]. fold (fill_missing ps r pop) in L, H. split; auto. intros p Hp x x'. destruct (H p Hp) as [Ha Hb]. split.
  - intros name Hn. apply Ha. intros i Hi C. apply Hn. rewrite <- C. apply in_map, nth_In. auto.
  - intros kv Hkv. apply (In_nth _ _ dvar) in Hkv as (i & Hi & E). specialize (Hb i Hi). cbn zeta in Hb. rewrite E in Hb. fold x x' in Hb. destruct Hb as [[-> B]|[-> (q & B)]]; auto.
    eexists. split; [exact B|]. rewrite Forall_forall in HV. specialize (Hj i q Hi). rewrite E in Hj. apply sample_var_in; auto. apply HV. rewrite <- E. apply nth_In. auto.
Qed.
Lemma dget_some_missing x name : is_missing (data_get x name) = false -> dget x name = Some (data_get x name).
Proof. unfold data_get. destruct (dget x name); cbn; [auto|discriminate]. Qed.
Lemma filled_covers ps r pop x : vars_ok ps -> pdraws_ok ps r -> (forall y, In y pop -> admissible ps y) -> In x (fill_missing ps r pop) -> covers ps x.
Proof.
  intros HV HR HA Hx. destruct (C119_filled ps r pop HV HR) as [L H]. apply (In_nth _ _ []) in Hx as (p & Hp & <-). rewrite L in Hp. destruct (H p Hp) as [_ H2]. intros kv Hkv. specialize (H2 kv Hkv). cbn zeta in H2.
  destruct (is_missing (data_get (nth p pop []) (fst kv))) eqn:E; auto. rewrite H2, (dget_some_missing _ _ E). eexists. split; eauto. destruct (HA (nth p pop []) (nth_In _ _ Hp) kv Hkv); auto. congruence.
Qed.

(** ** the age tournament *)
Lemma younger_spec gens a b coin : let w := younger gens [a; b] coin in In w [a; b] /\ nth a gens 0 <= nth w gens 0 /\ nth b gens 0 <= nth w gens 0.
Proof.
  cbv zeta. unfold younger. cbn [nth]. destruct (Nat.ltb_spec (nth b gens 0) (nth a gens 0)); [split; [left; auto|lia]|]. destruct (Nat.ltb_spec (nth a gens 0) (nth b gens 0)); [split; [right; left; auto|lia]|].
  destruct coin; (split; [cbn; auto|lia]).
Qed.
(** C119: parent number k of mating t wins tournament 2 t + k: it takes part in it, and nobody in it is younger *)
Theorem C119_age : forall gens N perm coin, gens <> [] -> (forall k, Permutation (perm k) (seq 0 (length gens))) ->
  let sel := age_selection gens N perm coin in length sel = N /\ forall t k, t < N -> k < 2 ->
    length (nth t sel []) = 2 /\ let w := nth k (nth t sel []) 0 in let tournament := nth (t * 2 + k) (tournaments (length gens) N 2 2 perm) [] in
    In w tournament /\ w < length gens /\ forall b, In b tournament -> nth b gens 0 <= nth w gens 0.
Proof.
  intros gens N perm coin Hg HP. cbv zeta. unfold age_selection. set (rows := tournaments (length gens) N 2 2 perm).
  destruct (C29_fair (length gens) N 2 2 perm ltac:(destruct gens; [congruence|cbn; lia]) HP) as (F1 & F2 & F3 & _). fold rows in F1, F2, F3. rewrite Forall_forall in F2, F3.
  set (ws := map _ _). assert (Lw : length ws = N * 2) by (unfold ws; rewrite map_length, seq_length; lia).
  destruct (reshape_rows N 2 _ Lw) as [R1 R2]. split; auto. intros t k Ht Hk. rewrite Forall_forall in R2. split; [apply R2, nth_In; lia|].
  rewrite nth_reshape by auto. unfold ws. rewrite nth_map_seq0 by nia. assert (Hr : In (nth (t * 2 + k) rows []) rows) by (apply nth_In; nia). pose proof (F2 _ Hr) as L2.
  assert (Hmem : forall b, In b (nth (t * 2 + k) rows []) -> b < length gens) by (intros b Hb; apply F3, in_concat; eauto).
  destruct (nth (t * 2 + k) rows []) as [|a [|b [|]]]; try discriminate. destruct (younger_spec gens a b (coin (t * 2 + k))) as (Y1 & Y2 & Y3). split; auto. split; [apply Hmem; auto|]. intros c [<-|[<-|[]]]; auto.
Qed.

(** ** evolved values *)
Lemma osequence_total {A B} (f : A -> option B) (g : A -> B) l : (forall x, In x l -> f x = Some (g x)) -> osequence (map f l) = Some (map g l).
Proof. induction l as [|x l IH]; intros H; auto. cbn [map osequence]. rewrite H by (left; auto). rewrite IH by (intros; apply H; right; auto). reflexivity. Qed.
Lemma dget_map_id (f : string * mvar -> mval) ps kv : NoDup (map fst ps) -> In kv ps -> dget (map (fun kv => (fst kv, f kv)) ps) (fst kv) = Some (f kv).
Proof.
  intros HN Hkv. apply In_dget; [now rewrite map_map|]. apply in_map_iff. eauto.
Qed.
Lemma dget_map_arr (f : string * mvar -> list mval) ps kv : NoDup (map fst ps) -> In kv ps -> dget (map (fun kv => (fst kv, f kv)) ps) (fst kv) = Some (f kv).
Proof.
  intros HN Hkv. apply In_dget; [now rewrite map_map|]. apply in_map_iff. eauto.
Qed.
(** C119: EvolutionaryParameterControl never fails on a population whose values are admissible or missing; it returns n values in the domain for every parameter, and the population filled in *)
Theorem C119_evolved : forall ps n pop gens e, vars_ok ps -> pop <> [] -> length gens = length pop -> edraws_ok ps (length pop) e -> (forall x, In x pop -> admissible ps x) ->
  exists vals, evolutionary_control ps n pop gens e = Some (vals, fill_missing ps (e_fill e) pop) /\ arrays_in ps n vals.
Proof.
  intros ps n pop gens e HV Hne Hg (HD & HP & HK) HA. unfold evolutionary_control. set (pop' := fill_missing ps (e_fill e) pop). pose proof HV as [HN HV'].
  assert (Hgne : gens <> []) by (destruct gens; [destruct pop; [congruence|discriminate]|congruence]). rewrite <- Hg in HP.
  destruct (C119_age gens n (e_perm e) (e_coin e) Hgne HP) as [LS HS]. cbn zeta in HS. set (sel := age_selection _ _ _ _) in *.
  set (parents := map _ sel). destruct (C84_mating (cross_default (e_ops e)) (mut_default (e_ops e)) ps parents n) as (off & Eo & Lo & Ho); auto using cross_default_ok, mut_default_ok.
  { unfold parents. rewrite map_length. lia. }
  { intros mating Hm. apply in_map_iff in Hm as (sr & <- & Hs). apply (In_nth _ _ []) in Hs as (t & Ht & <-). rewrite LS in Ht. destruct (HS t 0 Ht ltac:(lia)) as [L2 _]. split; [rewrite map_length; auto|].
    intros X HX. apply in_map_iff in HX as (p & <- & Hp). apply (In_nth _ _ 0) in Hp as (k & Hk & <-). rewrite L2 in Hk. destruct (HS t k Ht Hk) as [_ (_ & Hw & _)]. set (w := nth k (nth t sel []) 0) in *.
    intros kv Hkv. exists (data_get (nth w pop' []) (fst kv)). split; [apply (dget_map_id (fun kv => data_get (nth w pop' []) (fst kv))); auto|].
    destruct (filled_covers ps (e_fill e) pop (nth w pop' []) HV HD HA) with (kv := kv) as (x & Ex & Hx); auto.
    - apply nth_In. unfold pop'. rewrite (proj1 (C119_filled ps (e_fill e) pop HV HD)). lia.
    - unfold data_get. now rewrite Ex. }
  rewrite Eo. set (arr := fun kv : string * mvar => map (fun X => data_get X (fst kv)) off).
  rewrite (osequence_total _ (fun kv => (fst kv, arr kv))).
  2:{ intros kv Hkv. rewrite (osequence_total _ (fun X => data_get X (fst kv))); auto. intros X HX. destruct (Ho X HX) as [_ HC]. destruct (HC kv Hkv) as (x & Ex & _). unfold data_get. now rewrite Ex. }
  cbn [option_map]. eexists. split; [reflexivity|]. split.
  - split; [now rewrite map_map|]. apply Forall_forall. intros kv H. apply in_map_iff in H as (kv' & <- & _). cbn. unfold arr. now rewrite map_length.
  - intros kv k Hkv Hk. unfold value. rewrite (dget_map_arr arr) by auto. unfold arr. rewrite (nth_map_len _ _ _ []) by lia.
    assert (Hin : In (nth k off []) off) by (apply nth_In; lia). destruct (Ho _ Hin) as [_ HC]. destruct (HC kv Hkv) as (x & Ex & Hx). unfold data_get. now rewrite Ex.
Qed.

(** ** whole runs *)
Lemma mating_covers {A} (a0 : A) o cross_op mut_op ps vals n : 0 < o -> NoDup (map fst ps) -> arrays_in ps n vals ->
  exists off, control_mating a0 o cross_op mut_op ps vals n = Some off /\ length off = o * n /\ forall x, In x off -> covers ps (snd x).
Proof.
  intros Ho HN [HA HI]. destruct (C119_recorded a0 o cross_op mut_op ps vals n Ho HA) as (off & E & L & H). exists off. split; auto. split; auto. intros x Hx kv Hkv. apply (In_nth _ _ (a0, [])) in Hx as (p & Hp & <-). rewrite L in Hp.
  assert (Hn : 0 < n) by (destruct n; lia). assert (Hi : p / n < o) by (apply Nat.div_lt_upper_bound; lia). pose proof (Nat.mod_upper_bound p n ltac:(lia)) as Hk. destruct (H _ _ Hi Hk) as [_ HR]. cbn zeta in HR.
  replace (p / n * n + p mod n) with p in HR by (rewrite (Nat.mul_comm _ n), <- Nat.div_mod by lia; auto). rewrite (HR (fst kv) (in_map fst _ _ Hkv)). eexists. split; eauto. apply HI; auto. apply Nat.div_lt_upper_bound; lia.
Qed.
(** C119: ParameterControlMating with random control: the matings needed, no exception, and every offspring records a value of the domain for every parameter *)
Theorem C119_random_run : forall {A} (a0 : A) o cross_op mut_op ps n_offsprings rs fresh, 0 < o -> vars_ok ps -> pdraws_ok ps fresh ->
  exists off, random_mating a0 o cross_op mut_op ps n_offsprings rs fresh = Some off /\ length off = o * matings n_offsprings o /\ forall x, In x off -> covers ps (snd x).
Proof. intros A a0 o cross_op mut_op ps n rs fresh Ho HV HD. apply mating_covers; auto. - apply HV. - now apply C119_random. Qed.
(** the data carried by the individuals of a run with evolutionary control: at first no values; after a mating the next population consists of individuals of the old one (filled in) and of offspring *)
Inductive reached {A} (a0 : A) o cross_op mut_op (ps : vars) : list dict -> Prop :=
| reached_start pop : (forall x kv, In x pop -> In kv ps -> is_missing (data_get x (fst kv)) = true) -> reached a0 o cross_op mut_op ps pop
| reached_mating pop gens n e_state e off pop' next : reached a0 o cross_op mut_op ps pop -> pop <> [] -> length gens = length pop -> edraws_ok ps (length pop) e ->
    evolutionary_mating a0 o cross_op mut_op ps n pop gens e_state e = Some (off, pop') -> (forall x, In x next -> In x pop' \/ In x (map snd off)) -> reached a0 o cross_op mut_op ps next.
Lemma evo_mating_spec {A} (a0 : A) o cross_op mut_op ps n pop gens e_state e : 0 < o -> vars_ok ps -> pop <> [] -> length gens = length pop -> edraws_ok ps (length pop) e -> (forall x, In x pop -> admissible ps x) ->
  exists off, evolutionary_mating a0 o cross_op mut_op ps n pop gens e_state e = Some (off, fill_missing ps (e_fill e) pop) /\ length off = o * matings n o /\ forall x, In x off -> covers ps (snd x).
Proof.
  intros Ho HV Hne Hg HD HA. unfold evolutionary_mating. cbn [generator]. destruct (C119_evolved ps (matings n o) pop gens e HV Hne Hg HD HA) as (vals & -> & HI).
  destruct (mating_covers a0 o cross_op mut_op ps vals (matings n o) Ho (proj1 HV) HI) as (off & -> & L & HC). exists off. auto.
Qed.
Lemma covers_admissible ps x : covers ps x -> admissible ps x.
Proof. intros H kv Hkv. destruct (H kv Hkv) as (v & E & D). right. unfold data_get. now rewrite E. Qed.
(** C119: in every run every value attached to an individual is in the domain of its parameter; hence the mating never fails, and the individuals of a population it was applied to and all offspring have values for all parameters *)
Theorem C119_run : forall {A} (a0 : A) o cross_op mut_op ps pop, 0 < o -> vars_ok ps -> reached a0 o cross_op mut_op ps pop ->
  (forall x, In x pop -> admissible ps x) /\
  forall n gens e_state e, pop <> [] -> length gens = length pop -> edraws_ok ps (length pop) e ->
    exists off pop', evolutionary_mating a0 o cross_op mut_op ps n pop gens e_state e = Some (off, pop') /\ length off = o * matings n o /\ length pop' = length pop /\
      (forall x, In x off -> covers ps (snd x)) /\ (forall x, In x pop' -> covers ps x).
Proof.
  intros A a0 o cross_op mut_op ps pop Ho HV HR.
  assert (HAdm : forall x, In x pop -> admissible ps x).
  { induction HR as [pop H|pop gens n e_state e off pop' next HR IH Hne Hg HD E Hnext].
    - intros x Hx kv Hkv. left. eauto.
    - destruct (evo_mating_spec a0 o cross_op mut_op ps n pop gens e_state e Ho HV Hne Hg HD IH) as (off' & E' & _ & HC). rewrite E in E'. injection E' as -> ->.
      intros x Hx. apply covers_admissible. destruct (Hnext x Hx) as [H|H]; [eapply filled_covers; eauto; apply HD|]. apply in_map_iff in H as (y & <- & Hy). auto. }
  split; auto. intros n gens e_state e Hne Hg HD. destruct (evo_mating_spec a0 o cross_op mut_op ps n pop gens e_state e Ho HV Hne Hg HD HAdm) as (off & E & L & HC). exists off, (fill_missing ps (e_fill e) pop). split; auto. split; auto.
  split; [apply C119_filled; auto; apply HD|]. split; auto. intros x Hx. eapply filled_covers; eauto. apply HD.
Qed.
