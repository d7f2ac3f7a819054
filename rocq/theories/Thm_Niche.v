(** * C117: NicheGA's epsilon-clearing survival, the loop *)
From Coq Require Import List Arith Bool ZArith QArith Lia Permutation Sorted.
From Verif Require Import ListAux M_Roulette M_Norm M_Niche Thm_Norm Thm_RMetric Thm_Roulette.
Import ListNotations.
Local Open Scope nat_scope.

Definition ni_core (a : nini) : list Q * Q * Q := (ni_x a, ni_f a, ni_cv a).
(** the next label: one rank further in the same round, or rank 1 of the next round *)
Definition label_next (a b : nat * nat) : Prop := b = (fst a, S (snd a)) \/ b = (S (fst a), 1).
Definition rounds (L : list (nat * nat)) : Prop := (L <> [] -> nth 0 L (0, 0) = (1, 1)) /\ forall p, S p < length L -> label_next (nth p L (0, 0)) (nth (S p) L (0, 0)).

Section Loop.
  Variables (D : nat -> nat -> Q) (eps : Q) (nmax : option nat) (pop0 : list nini).
  Let n := length pop0.
  Notation close := (ni_close D eps).
  Notation SV st := (cl_S (ns_c st)).
  Notation CV st := (cl_C (ns_c st)).
  Definition ps (st : nst) (p : nat) : nat := nth p (SV st) 0.
  Definition im (st : nst) (p : nat) : nini := nth (ps st p) (ns_pop st) nini0.
  Definition lb (L : list (nat * nat)) (p : nat) : nat * nat := nth p L (0, 0).
  Definition stale (j : nat) : Prop := iter_is_one (nth j pop0 nini0) = true.
  Record ninv (L : list (nat * nat)) (e : nat) (st : nst) : Prop := {
    i_len : length (ns_pop st) = n;
    i_core : forall j, ni_core (nth j (ns_pop st) nini0) = ni_core (nth j pop0 nini0);
    i_flag : forall j, ~ In j (SV st) -> nth j (ns_pop st) nini0 = nth j pop0 nini0;
    i_nd : NoDup (SV st);
    i_bd : Forall (fun j => j < n) (SV st);
    i_C : length (CV st) = n;
    i_e : e <= length (SV st);
    i_sel : forall j, In j (SV st) -> nth j (CV st) false = true;
    i_cl : forall p j, e <= p < length (SV st) -> j < n -> close (ps st p) j = true -> nth j (CV st) false = true;
    i_cov : forall j, j < n -> nth j (CV st) false = true -> In j (SV st) \/ exists p, e <= p < length (SV st) /\ ps st p < j /\ close (ps st p) j = true;
    i_less : forall p j, e <= p < length (SV st) -> j < n -> nth j (CV st) false = false -> ps st p < j;
    i_L : length L = length (SV st);
    i_lab : forall p, p < length L -> ni_iter (im st p) = Some (fst (lb L p)) /\ ni_rank (im st p) = Some (snd (lb L p));
    i_rounds : rounds L;
    i_cur : forall p, p < length L -> 1 <= fst (lb L p) <= ns_it st /\ (fst (lb L p) = ns_it st <-> e <= p);
    i_sep : forall p q, p < q -> q < length L -> fst (lb L p) = fst (lb L q) -> close (ps st p) (ps st q) = false /\ ps st p < ps st q;
    i_cover : nmax = None -> forall r, 1 <= r < ns_it st -> forall j, j < n ->
      (exists p, p < length L /\ ps st p = j /\ fst (lb L p) <= r) \/ (exists p, p < length L /\ fst (lb L p) = r /\ ps st p < j /\ close (ps st p) j = true);
    i_max : forall m, nmax = Some m -> forall p, p < length L -> snd (lb L p) <= m;
    i_first : 0 < length (SV st) -> ps st 0 = 0;
    i_it : 1 <= ns_it st;
    i_none : ns_it st = 1 -> ns_one st = None;
    i_one : 2 <= ns_it st -> exists os, ns_one st = Some os /\ StronglySorted lt os /\
      forall j, In j os <-> j < n /\ ((exists p, p < length L /\ ps st p = j /\ fst (lb L p) = 1) \/ stale j);
    i_niche1 : forall p, p < length L -> fst (lb L p) = 1 -> ni_niche (im st p) = Some (snd (lb L p));
    i_niche2 : (forall j, j < n -> ~ stale j) -> forall p, p < length L -> 2 <= fst (lb L p) ->
      exists q, q < length L /\ fst (lb L q) = 1 /\ ni_niche (im st p) = Some (snd (lb L q)) /\
        forall c, c < length L -> fst (lb L c) = 1 -> (D (ps st p) (ps st q) <= D (ps st p) (ps st c))%Q /\ (c < q -> (D (ps st p) (ps st q) < D (ps st p) (ps st c))%Q) }.
  (** before and after [ni_refresh] *)
  Definition pre (L : list (nat * nat)) (st : nst) : Prop := (L = [] /\ ns_it st = 1 /\ ns_rk st = 1) \/ (exists k, L <> [] /\ ns_rk st = S k /\ lb L (length L - 1) = (ns_it st, k)).
  Definition post (L : list (nat * nat)) (st : nst) : Prop := pre L st \/ (L <> [] /\ ns_rk st = 1 /\ ns_it st = S (fst (lb L (length L - 1)))).

  Lemma where_sorted (p : nat -> bool) k : StronglySorted lt (where_ p k).
  Proof.
    unfold where_. assert (G : forall m s, StronglySorted lt (filter p (seq s m)) /\ Forall (fun j => s <= j) (filter p (seq s m))).
    { induction m as [|m IH]; intros s; cbn [seq filter]; [split; constructor|]. destruct (IH (S s)) as [H1 H2].
      assert (H3 : Forall (fun j => s < j) (filter p (seq (S s) m))) by (eapply Forall_impl; [|exact H2]; cbn; intros; lia).
      destruct (p s); [split; [constructor; auto|constructor; auto]|split; auto]; eapply Forall_impl; [|exact H3| |exact H3]; cbn; intros; lia. }
    apply G.
  Qed.
  Lemma im_in st p : p < length (SV st) -> In (ps st p) (SV st).
  Proof. intros. now apply nth_In. Qed.

  Lemma init_inv : ninv [] 0 (ns_init pop0) /\ pre [] (ns_init pop0).
  Proof.
    split; [|left; auto]. unfold ns_init. constructor; cbn [ns_pop ns_c ns_it ns_rk ns_one cl_init cl_S cl_C length]; auto; try (intros; lia); try contradiction; try (now constructor).
    all: match goal with |- length (repeat _ _) = _ => apply repeat_length | |- rounds [] => split; [congruence|cbn; intros; lia] | _ => intros j Hj K; rewrite nth_repeat in K; discriminate end.
  Qed.

  Lemma refresh_inv L e st : nmax <> Some 0 -> ninv L e st -> pre L st -> length (SV st) < n ->
    exists e', ninv L e' (ni_refresh nmax st) /\ post L (ni_refresh nmax st) /\ cl_remaining n (ns_c (ni_refresh nmax st)) <> [] /\ SV (ni_refresh nmax st) = SV st /\
      (forall m, nmax = Some m -> ns_rk (ni_refresh nmax st) <= m).
  Proof.
    intros Hm HI HP HL. unfold ni_refresh. destruct (ni_reset_now nmax st) eqn:E.
    2:{ exists e. split; auto. split; [left; auto|]. unfold ni_reset_now in E. rewrite (i_len _ _ _ HI) in E. destruct (cl_remaining n (ns_c st)) as [|k r]; [discriminate|].
        split; [discriminate|]. split; auto. intros m ->. apply Nat.ltb_ge in E. exact E. }
    assert (HLn : L <> []).
    { intros ->. destruct HP as [(_ & H1 & H2)|(k & H & _)]; [|congruence]. unfold ni_reset_now in E. rewrite (i_len _ _ _ HI) in E.
      assert (HS : SV st = []) by (destruct (SV st) eqn:X; auto; pose proof (i_L _ _ _ HI) as K; rewrite X in K; discriminate).
      destruct (cl_remaining n (ns_c st)) as [|k r] eqn:ER.
      - rewrite HS in HL. cbn in HL. destruct (nth 0 (CV st) false) eqn:EC.
        + apply (i_cov _ _ _ HI) in EC; [|lia]. rewrite HS in EC. destruct EC as [[]|(p & Hp & _)]. cbn in Hp. lia.
        + assert (K : In 0 (cl_remaining n (ns_c st))) by (apply In_where; split; [lia|now rewrite EC]). rewrite ER in K. destruct K.
      - destruct nmax as [[|m]|]; [congruence| |discriminate]. rewrite H2 in E. apply Nat.ltb_lt in E. lia. }
    assert (Hlast : exists k, ns_rk st = S k /\ lb L (length L - 1) = (ns_it st, k)) by (destruct HP as [(H & _)|(k & _ & H1 & H2)]; [contradiction|eauto]).
    destruct Hlast as (k & Hrk & Hlast).
    exists (length (SV st)). rewrite (i_len _ _ _ HI). assert (Hflag : forall j, In j (SV st) -> j < n) by (intros j Hj; pose proof (i_bd _ _ _ HI) as B; rewrite Forall_forall in B; auto).
    assert (Hcl : forall j, j < n -> (nth j (cl_C (cl_reset n (ns_c st))) false = true <-> In j (SV st))).
    { intros j Hj. unfold cl_reset. cbn [cl_C]. rewrite reset_flags; rewrite ?repeat_length; auto; [|apply (i_bd _ _ _ HI)]. rewrite nth_repeat. intuition congruence. }
    split; [|split; [|split; [|split]]].
    - constructor; cbn [ns_pop ns_c ns_it ns_rk ns_one]; unfold ps, im; cbn [ns_pop ns_c cl_reset cl_S]; try (now apply HI); fold (ps st); fold (im st); auto; try (intros; lia).
      + unfold cl_reset; cbn [cl_C]. rewrite length_reset. apply repeat_length.
      + intros j Hj. apply Hcl; auto.
      + intros j Hj HC. left. apply Hcl; auto.
      + intros p Hp. destruct (i_cur _ _ _ HI p Hp) as [H1 H2]. rewrite (i_L _ _ _ HI) in Hp. lia.
      + intros HN r Hr j Hj. destruct (Nat.eq_dec r (ns_it st)) as [->|Hne]; [|apply (i_cover _ _ _ HI HN r); auto; lia].
        assert (HC : nth j (CV st) false = true).
        { unfold ni_reset_now in E. rewrite (i_len _ _ _ HI), HN in E. destruct (cl_remaining n (ns_c st)) as [|k' r'] eqn:ER; [|discriminate].
          destruct (nth j (CV st) false) eqn:EC; auto. assert (K : In j (cl_remaining n (ns_c st))) by (apply In_where; split; auto; now rewrite EC). rewrite ER in K. destruct K. }
        apply (i_cov _ _ _ HI) in HC; auto. destruct HC as [HC|(p & Hp & H1 & H2)].
        * left. apply (In_nth _ _ 0) in HC as (p & Hp & HC). exists p. rewrite (i_L _ _ _ HI). split; auto. split; auto. apply (i_cur _ _ _ HI). now rewrite (i_L _ _ _ HI).
        * right. exists p. rewrite (i_L _ _ _ HI). split; [lia|]. split; auto. apply (i_cur _ _ _ HI); [rewrite (i_L _ _ _ HI)|]; lia.
      + intros K. pose proof (i_it _ _ _ HI). lia.
      + intros _. destruct (le_lt_dec 2 (ns_it st)) as [H2|H2].
        * destruct (i_one _ _ _ HI H2) as (os & E1 & E2). rewrite E1. eauto.
        * assert (H1 : ns_it st = 1) by (pose proof (i_it _ _ _ HI); lia). rewrite (i_none _ _ _ HI H1). eexists. split; [reflexivity|]. split; [apply where_sorted|].
          intros j. rewrite In_where. split.
          -- intros [Hj Ej]. split; auto. destruct (in_dec Nat.eq_dec j (SV st)) as [HS|HS].
             ++ left. apply (In_nth _ _ 0) in HS as (p & Hp & HS). exists p. rewrite (i_L _ _ _ HI). split; auto. split; auto. pose proof (i_cur _ _ _ HI p ltac:(rewrite (i_L _ _ _ HI); auto)). lia.
             ++ right. unfold stale. now rewrite <- (i_flag _ _ _ HI j HS).
          -- intros [Hj [(p & Hp & <- & Ep)|Hs]]; split; auto.
             ++ destruct (i_lab _ _ _ HI p Hp) as [K _]. unfold im in K. unfold iter_is_one, ps in *. now rewrite K, Ep.
             ++ destruct (in_dec Nat.eq_dec j (SV st)) as [HS|HS]; [|rewrite (i_flag _ _ _ HI j HS); exact Hs].
                apply (In_nth _ _ 0) in HS as (p & Hp & HS). rewrite <- (i_L _ _ _ HI) in Hp. destruct (i_lab _ _ _ HI p Hp) as [K _]. unfold im, ps in K. rewrite HS in K. unfold iter_is_one. rewrite K.
                pose proof (i_cur _ _ _ HI p Hp). replace (fst (lb L p)) with 1 by lia. reflexivity.
    - right. cbn [ns_rk ns_it]. rewrite Hlast. auto.
    - cbn [ns_c]. assert (K : exists j, j < n /\ ~ In j (SV st)) by (apply NoDup_short; auto; apply HI). destruct K as (j & Hj & Hs). intros K.
      assert (X : In j (cl_remaining n (cl_reset n (ns_c st)))); [|rewrite K in X; destruct X]. apply In_where. split; auto. apply negb_true_iff.
      destruct (nth j (cl_C (cl_reset n (ns_c st))) false) eqn:EC; auto. apply Hcl in EC; auto. contradiction.
    - reflexivity.
    - intros m ->. cbn [ns_rk]. destruct m; [congruence|lia].
  Qed.

  Lemma snoc_lb L x p : lb (L ++ [x]) p = if p <? length L then lb L p else if p =? length L then x else (0, 0).
  Proof.
    unfold lb. destruct (Nat.ltb_spec p (length L)); [now apply app_nth1|]. destruct (Nat.eqb_spec p (length L)) as [->|Hne]; [apply nth_middle|].
    apply nth_overflow. rewrite app_length. cbn. lia.
  Qed.
  Lemma rounds_snoc L st : post L st -> rounds L -> rounds (L ++ [(ns_it st, ns_rk st)]).
  Proof.
    intros HP [H0 H1]. split.
    - intros _. destruct L as [|a L]; [|cbn in *; apply H0; discriminate]. cbn. destruct HP as [[(_ & -> & ->)|(k & K & _)]|(K & _)]; congruence.
    - intros p Hp. rewrite app_length in Hp. cbn in Hp. destruct (Nat.eq_dec (S p) (length L)) as [E|Hne].
      + rewrite app_nth1 by lia. rewrite E, nth_middle. replace p with (length L - 1) by lia. destruct HP as [[(-> & _)|(k & _ & K1 & K2)]|(_ & K1 & K2)]; [discriminate| |].
        * unfold lb in K2. rewrite K2, K1. left. reflexivity.
        * rewrite K1, K2. right. reflexivity.
      + rewrite !app_nth1 by lia. apply H1. lia.
  Qed.
  Lemma pick_inv L e st : ninv L e st -> post L st -> (1 < ns_it st -> L <> []) -> cl_remaining n (ns_c st) <> [] -> (forall m, nmax = Some m -> ns_rk st <= m) ->
    exists st', ni_pick D eps st = Some st' /\ ninv (L ++ [(ns_it st, ns_rk st)]) e st' /\ pre (L ++ [(ns_it st, ns_rk st)]) st' /\ length (SV st') = S (length (SV st)).
  Proof.
    intros HI HP HLn HR HM. unfold ni_pick. rewrite (i_len _ _ _ HI). destruct (cl_remaining n (ns_c st)) as [|k rem] eqn:ER; [congruence|]. clear HR.
    assert (Hk : k < n /\ nth k (CV st) false = false) by (assert (K : In k (cl_remaining n (ns_c st))) by (rewrite ER; cbn; auto); apply In_where in K as [K1 K2]; apply negb_true_iff in K2; auto).
    destruct Hk as [Hk HkC].
    assert (Hleast : forall j, j < n -> nth j (CV st) false = false -> k <= j).
    { intros j Hj HC. assert (K : In j (k :: rem)) by (rewrite <- ER; apply In_where; split; auto; now rewrite HC). pose proof (where_sorted (fun i => negb (nth i (CV st) false)) n) as SS.
      unfold cl_remaining in ER. rewrite ER in SS. inversion SS; subst. destruct K as [->|K]; auto. rewrite Forall_forall in H2. specialize (H2 j K). lia. }
    assert (HkS : ~ In k (SV st)) by (intros K; apply (i_sel _ _ _ HI) in K; congruence).
    assert (HLS := i_L _ _ _ HI).
    (** the niche *)
    assert (HN : exists nc, (if ns_it st =? 1 then Some (Some (ns_rk st)) else match ns_one st with
               | Some (i :: one) => Some (ni_niche (nth (nth (argminQ (map (D k) (i :: one))) (i :: one) 0) (ns_pop st) nini0)) | _ => None end) = Some nc /\
               (ns_it st = 1 -> nc = Some (ns_rk st)) /\
               (2 <= ns_it st -> (forall j, j < n -> ~ stale j) -> exists q, q < length L /\ fst (lb L q) = 1 /\ nc = Some (snd (lb L q)) /\
                  forall c, c < length L -> fst (lb L c) = 1 -> (D k (ps st q) <= D k (ps st c))%Q /\ (c < q -> (D k (ps st q) < D k (ps st c))%Q))).
    { destruct (Nat.eqb_spec (ns_it st) 1) as [E1|E1]; [exists (Some (ns_rk st)); split; auto; split; auto; lia|].
      assert (H2 : 2 <= ns_it st) by (pose proof (i_it _ _ _ HI); lia). destruct (i_one _ _ _ HI H2) as (os & -> & HS & Hos).
      assert (H0 : In (ps st 0) os).
      { apply Hos. specialize (HLn ltac:(lia)). assert (0 < length L) by (destruct L; [congruence|cbn; lia]). split; [|left; exists 0; split; auto; split; auto; unfold lb; now rewrite (proj1 (i_rounds _ _ _ HI) HLn)].
        pose proof (i_bd _ _ _ HI) as B. rewrite Forall_forall in B. apply B, im_in. lia. }
      destruct os as [|i one]; [destruct H0|]. eexists. split; [reflexivity|]. split; [lia|]. intros _ Hfr. set (os := i :: one) in *. set (a := argminQ (map (D k) os)).
      destruct (argminQ_spec (map (D k) os)) as [A1 A2]; [subst os; discriminate|]. fold a in A1, A2. rewrite map_length in A1.
      assert (Ha : In (nth a os 0) os) by (apply nth_In; auto). apply Hos in Ha as [Ha1 [(q & Hq & Eq & E)|Ha2]]; [|exfalso; eapply Hfr; eauto].
      exists q. split; auto. split; auto. split; [rewrite <- Eq; apply (i_niche1 _ _ _ HI q Hq E)|]. intros c Hc Ec.
      assert (Hin : In (ps st c) os) by (apply Hos; split; [pose proof (i_bd _ _ _ HI) as B; rewrite Forall_forall in B; apply B, im_in; lia|left; eauto]).
      apply (In_nth _ _ 0) in Hin as (b & Hb & Eb). rewrite (nth_indep _ 0%Q (D k 0)) in A2 by (rewrite map_length; auto). rewrite map_nth in A2. rewrite Eq. split.
      - rewrite Forall_forall in A2. apply A2. apply in_map_iff. exists (ps st c). split; auto. rewrite <- Eb. apply nth_In; auto.
      - intros Hcq. assert (ps st c < ps st q) by (apply (i_sep _ _ _ HI c q); auto; lia).
        assert (Hba : b < a).
        { destruct (lt_eq_lt_dec a b) as [[K|K]|K]; auto; exfalso; [|subst b; lia]. pose proof (StronglySorted_nth _ _ 0 a b HS) as Q. specialize (Q ltac:(lia)). lia. }
        pose proof (argminQ_first (map (D k) os) ltac:(subst os; discriminate) b Hba) as K. fold a in K. rewrite !(nth_indep (map (D k) os) 0%Q (D k 0)) in K by (rewrite map_length; lia). rewrite (map_nth (D k) os 0 a) in K.
        rewrite map_nth in K. now rewrite Eb in K. }
    destruct HN as (nc & -> & HN1 & HN2). eexists. split; [reflexivity|].
    set (st' := {| ns_pop := upd (ns_pop st) k (set_round (ns_it st) (ns_rk st) nc (nth k (ns_pop st) nini0)); ns_c := cl_select n close k (ns_c st); ns_it := ns_it st; ns_rk := S (ns_rk st); ns_one := ns_one st |}).
    set (L' := L ++ [(ns_it st, ns_rk st)]).
    assert (HSV : SV st' = SV st ++ [k]) by reflexivity. assert (HlenS : length (SV st') = S (length (SV st))) by (rewrite HSV, app_length; cbn; lia).
    assert (HlenL : length L' = S (length L)) by (unfold L'; rewrite app_length; cbn; lia).
    assert (Hps : forall p, p < length (SV st) -> ps st' p = ps st p) by (intros p Hp; unfold ps; rewrite HSV, app_nth1; auto).
    assert (Hpk : ps st' (length (SV st)) = k) by (unfold ps; rewrite HSV, nth_middle; auto).
    assert (Hpne : forall p, p < length (SV st) -> ps st p <> k) by (intros p Hp K; apply HkS; rewrite <- K; now apply im_in).
    assert (Him : forall p, p < length (SV st) -> im st' p = im st p) by (intros p Hp; unfold im; rewrite Hps by auto; unfold st'; cbn [ns_pop]; apply nth_upd_neq; auto).
    assert (Hik : im st' (length (SV st)) = set_round (ns_it st) (ns_rk st) nc (nth k (ns_pop st) nini0)) by (unfold im; rewrite Hpk; unfold st'; cbn [ns_pop]; apply nth_upd_eq; rewrite (i_len _ _ _ HI); auto).
    assert (Hlb : forall p, p < length L -> lb L' p = lb L p) by (intros p Hp; unfold L'; rewrite snoc_lb; now rewrite (proj2 (Nat.ltb_lt _ _) Hp)).
    assert (Hlk : lb L' (length L) = (ns_it st, ns_rk st)) by (unfold L'; rewrite snoc_lb, Nat.ltb_irrefl, Nat.eqb_refl; auto).
    assert (HC' : forall j, j < n -> nth j (CV st') false = (if j =? k then true else nth j (CV st) false) || close k j).
    { intros j Hj. unfold st'. cbn [ns_c cl_select cl_C]. rewrite (nth_indep _ false ((nth 0 (upd (CV st) k true) false || close k 0)%bool)) by (now rewrite map_length, seq_length).
      rewrite (map_nth (fun j => (nth j (upd (CV st) k true) false || close k j)%bool)), seq_nth by auto. cbn [Nat.add]. rewrite nth_upd, (i_C _ _ _ HI). rewrite (proj2 (Nat.ltb_lt k n) Hk), andb_true_r. reflexivity. }
    split; [|split; [|exact HlenS]].
    2:{ right. exists (ns_rk st). split; [unfold L'; destruct L; discriminate|]. split; auto. rewrite HlenL. replace (S (length L) - 1) with (length L) by lia. exact Hlk. }
    assert (Hcases : forall p, p < length L' -> p < length L \/ p = length L) by (intros; lia).
    constructor.
    - unfold st'. cbn [ns_pop]. rewrite length_upd. apply HI.
    - intros j. unfold st'. cbn [ns_pop]. rewrite nth_upd. destruct ((j =? k) && (k <? length (ns_pop st))) eqn:E; [|apply HI]. apply andb_true_iff in E as [E _]. apply Nat.eqb_eq in E as ->. rewrite <- (i_core _ _ _ HI). reflexivity.
    - intros j Hj. rewrite HSV, in_app_iff in Hj. cbn in Hj. unfold st'. cbn [ns_pop]. rewrite nth_upd_neq by (intros ->; tauto). apply HI. tauto.
    - rewrite HSV. apply NoDup_app_iff. split; [apply HI|]. split; [repeat constructor; auto|]. intros j Hj [<-|[]]. contradiction.
    - rewrite HSV. apply Forall_app. split; [apply HI|auto].
    - unfold st'. cbn [ns_c cl_select cl_C]. now rewrite map_length, seq_length.
    - rewrite HlenS. pose proof (i_e _ _ _ HI). lia.
    - intros j Hj. rewrite HSV, in_app_iff in Hj. cbn in Hj. assert (j < n) by (destruct Hj as [Hj|[<-|[]]]; auto; pose proof (i_bd _ _ _ HI) as B; rewrite Forall_forall in B; auto).
      rewrite HC' by auto. destruct (Nat.eqb_spec j k); auto. destruct Hj as [Hj|[Hj|[]]]; [|congruence]. now rewrite (i_sel _ _ _ HI j Hj).
    - intros p j Hp Hj HC. rewrite HC' by auto. destruct (Nat.eqb_spec j k); auto. destruct (Nat.eq_dec p (length (SV st))) as [->|Hne].
      + rewrite Hpk in HC. rewrite HC. apply orb_true_r.
      + rewrite Hps in HC by lia. rewrite (i_cl _ _ _ HI p j); auto. lia.
    - intros j Hj HC. rewrite HC' in HC by auto. destruct (Nat.eqb_spec j k) as [->|Hne]; [left; rewrite HSV, in_app_iff; cbn; auto|].
      apply orb_true_iff in HC. destruct (nth j (CV st) false) eqn:EC.
      + destruct (i_cov _ _ _ HI j Hj EC) as [K|(p & Hp & K1 & K2)]; [left; rewrite HSV, in_app_iff; auto|]. right. exists p. rewrite Hps by lia. split; [lia|auto].
      + destruct HC as [HC|HC]; [discriminate|]. right. exists (length (SV st)). rewrite Hpk. pose proof (i_e _ _ _ HI). split; [lia|]. split; auto. specialize (Hleast j Hj EC). lia.
    - intros p j Hp Hj HC. rewrite HC' in HC by auto. destruct (Nat.eqb_spec j k) as [->|Hne]; [discriminate|]. apply orb_false_iff in HC as [EC _].
      destruct (Nat.eq_dec p (length (SV st))) as [->|Hne']; [rewrite Hpk; specialize (Hleast j Hj EC); lia|]. rewrite Hps by lia. apply (i_less _ _ _ HI); auto. lia.
    - lia.
    - intros p Hp. destruct (Hcases p Hp) as [Hp'| ->].
      + rewrite Hlb, Him by lia. now apply HI.
      + rewrite Hlk. rewrite HLS, Hik. auto.
    - now apply rounds_snoc, HI.
    - intros p Hp. destruct (Hcases p Hp) as [Hp'| ->].
      + rewrite Hlb by auto. apply (i_cur _ _ _ HI); auto.
      + rewrite Hlk. cbn [fst st' ns_it]. pose proof (i_it _ _ _ HI). pose proof (i_e _ _ _ HI). split; [lia|]. split; intros; auto. lia.
    - intros p q Hpq Hq Hf. destruct (Hcases q Hq) as [Hq'| ->].
      + rewrite !Hlb in Hf by lia. rewrite !Hps by lia. apply (i_sep _ _ _ HI); auto.
      + rewrite Hlk, Hlb in Hf by lia. cbn [fst] in Hf. rewrite HLS, Hpk, Hps by lia. assert (Hep : e <= p) by (apply (i_cur _ _ _ HI); auto).
        split; [|apply (i_less _ _ _ HI); auto; lia]. destruct (close (ps st p) k) eqn:EC; auto. apply (i_cl _ _ _ HI) in EC; [congruence|lia|auto].
    - intros Hnm r Hr j Hj. cbn [st' ns_it] in Hr. destruct (i_cover _ _ _ HI Hnm r Hr j Hj) as [(p & Hp & K1 & K2)|(p & Hp & K1 & K2 & K3)].
      + left. exists p. rewrite Hlb, Hps by lia. split; [lia|auto].
      + right. exists p. rewrite Hlb, Hps by lia. split; [lia|auto].
    - intros m Hmm p Hp. destruct (Hcases p Hp) as [Hp'| ->]; [rewrite Hlb by auto; eapply i_max; eauto|]. rewrite Hlk. cbn. auto.
    - intros _. destruct (SV st) as [|k0 S0] eqn:ES.
      + unfold ps. rewrite HSV. cbn [app nth]. assert (E0 : nth 0 (CV st) false = false).
        { destruct (nth 0 (CV st) false) eqn:EC; auto. apply (i_cov _ _ _ HI) in EC; [|lia]. rewrite ES in EC. destruct EC as [[]|(p & Hp & _)]. cbn in Hp. lia. }
        specialize (Hleast 0 ltac:(lia) E0). lia.
      + rewrite Hps by (cbn; lia). apply (i_first _ _ _ HI). rewrite ES. cbn. lia.
    - apply (i_it _ _ _ HI).
    - apply (i_none _ _ _ HI).
    - intros H2. cbn [st' ns_it] in H2. destruct (i_one _ _ _ HI H2) as (os & E & HS & Hos). exists os. split; auto. split; auto. intros j. rewrite Hos. split; intros [Hj [(p & Hp & K1 & K2)|Hs]]; split; auto; left.
      + exists p. rewrite Hlb, Hps by lia. split; [lia|auto].
      + destruct (Hcases p Hp) as [Hp'| ->]; [|rewrite Hlk in K2; cbn in K2; lia]. exists p. rewrite Hlb in K2 by auto. rewrite Hps in K1 by lia. auto.
    - intros p Hp Hf. destruct (Hcases p Hp) as [Hp'| ->].
      + rewrite Hlb, Him in * by lia. now apply HI.
      + rewrite Hlk in *. rewrite HLS, Hik. cbn in *. auto.
    - intros Hfr p Hp Hf. destruct (Hcases p Hp) as [Hp'| ->].
      + rewrite Hlb in Hf by auto. destruct (i_niche2 _ _ _ HI Hfr p Hp' Hf) as (q & Hq & K1 & K2 & K3). exists q. rewrite (Hlb q), (Him p), (Hps p), (Hps q) by lia. split; [lia|]. split; auto. split; auto.
        intros c Hc Ec. destruct (Hcases c Hc) as [Hc'| ->]; [rewrite Hlb in Ec by auto; rewrite Hps by lia; auto|]. rewrite Hlk in Ec. cbn in Ec. pose proof (i_cur _ _ _ HI p Hp'). lia.
      + rewrite Hlk in Hf. cbn in Hf. destruct (HN2 Hf Hfr) as (q & Hq & K1 & K2 & K3). exists q. rewrite (Hlb q), HLS, Hik, Hpk, (Hps q) by lia. split; [lia|]. split; auto. split; auto.
        intros c Hc Ec. destruct (Hcases c Hc) as [Hc'| ->]; [rewrite Hlb in Ec by auto; rewrite Hps by lia; auto|]. rewrite Hlk in Ec. cbn in Ec. lia.
  Qed.

  Lemma loop_inv ns fuel : nmax <> Some 0 -> forall L e st, ninv L e st -> pre L st -> ns <= n -> ns <= fuel + length (SV st) -> length (SV st) <= ns ->
    exists L' e' st', ni_loop D eps nmax fuel ns st = Some (gather nini0 (ns_pop st') (SV st')) /\ ninv L' e' st' /\ length (SV st') = ns /\ pre L' st'.
  Proof.
    intros Hm. induction fuel as [|fuel IH]; intros L e st HI HP Hn Hf Hle; cbn [ni_loop].
    - destruct (Nat.ltb_spec (length (SV st)) ns); [lia|]. exists L, e, st. split; auto. split; auto. split; auto. lia.
    - destruct (Nat.ltb_spec (length (SV st)) ns) as [Hlt|Hge]; [|exists L, e, st; split; auto; split; auto; split; auto; lia].
      destruct (refresh_inv L e st Hm HI HP ltac:(lia)) as (e1 & HI1 & HP1 & HR & HS & HM).
      assert (HLn : 1 < ns_it (ni_refresh nmax st) -> L <> []) by (intros K ->; destruct HP1 as [[(_ & H1 & _)|(k & H & _)]|(H & _)]; [lia|congruence|congruence]).
      destruct (pick_inv L e1 _ HI1 HP1 HLn HR HM) as (st' & -> & HI2 & HP2 & HL). rewrite HS in HL. apply (IH _ _ _ HI2 HP2 Hn); lia.
  Qed.
End Loop.
