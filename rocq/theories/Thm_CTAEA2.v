From Coq Require Import List Arith Bool ZArith Lia Permutation.
From Verif Require Import Flt ListAux NpSort M_Dominator M_NDS M_Optimum M_NSGA3 M_CTAEA S_Pareto S_NDS P_Peel P_NDS1 P_Dominator P_Optimum S_Survival P_Survival P_NSGA3 P_Survival4 Thm_Dominator S_CTAEA Thm_CTAEA.
Import ListNotations.
Local Open Scope nat_scope.

Section DA.
  Context {A : Type} (d : A) (obj : A -> list flt) (niche : A -> nat) (fv : A -> flt) (ff : fltmat -> list nat).
  Variables (ca Hd : list A) (n m : nat).
  Notation ind i := (nth i Hd d).
  Hypothesis Hind : forall i, i < length Hd -> length (obj (ind i)) = m /\ vec_ok (obj (ind i)) /\ isnan (fv (ind i)) = false.
  Hypothesis Hff : ff_ok m ff.
  Notation avail := (available d niche Hd).

  Lemma avail_In got k i : In i (avail got k) <-> i < length Hd /\ niche (ind i) = k /\ ~ In i got.
  Proof.
    unfold available. rewrite In_where, andb_true_iff, Nat.eqb_eq, negb_true_iff. split; intros (H1 & H2 & H3); (split; [auto|]); (split; [auto|]).
    - intros C. assert (E : existsb (Nat.eqb i) got = true) by (apply existsb_exists; exists i; split; [auto|apply Nat.eqb_refl]). congruence.
    - destruct (existsb (Nat.eqb i) got) eqn:E; auto. apply existsb_exists in E as (x & Hx & E). apply Nat.eqb_eq in E. subst x. contradiction.
  Qed.
  Lemma best_spec l : l <> [] -> (forall i, In i l -> i < length Hd) -> In (best_of d obj fv ff Hd l) l /\ forall j, In j l -> ~ dominates (obj (ind j)) (obj (ind (best_of d obj fv ff Hd l))).
  Proof.
    intros Hne HB. set (F := map (fun i => obj (ind i)) l).
    assert (HF : F <> []) by (destruct l; [congruence|discriminate]).
    assert (HR : rect m F /\ mat_ok F) by (split; apply Forall_forall; intros r Hr; apply in_map_iff in Hr as (i & <- & Hi); apply (Hind i (HB i Hi))). destruct HR as [HR HM].
    destruct (Hff F HF HR HM) as [HN HI]. unfold best_of. cbv zeta. fold F.
    assert (HL : length F = length l) by apply map_length.
    destruct (argmin_map (fun p => fv (ind (nth p l 0))) (ff F) 0 HN) as [H1 _].
    { intros p Hp. apply HI in Hp as [Hp _]. rewrite HL in Hp. apply Hind, HB. now apply nth_In. }
    set (p := nth _ (ff F) 0) in *. apply HI in H1 as [Hp HD]. rewrite HL in *. split; [now apply nth_In|]. intros j Hj. apply (In_nth _ _ 0) in Hj as (q & Hq & <-). specialize (HD q Hq). unfold row_dom, F in HD.
    rewrite !(nth_indep (map (fun i => obj (ind i)) l) [] (obj (ind 0))) in HD by (now rewrite map_length). now rewrite !(map_nth (fun i => obj (ind i)) l 0) in HD.
  Qed.

  (** what holds after every pick *)
  Definition da_ok (got : list nat) : Prop :=
    NoDup got /\ (forall i, In i got -> i < length Hd /\ niche (ind i) < n) /\ length got <= n /\
    forall i j, In i got -> j < length Hd -> ~ In j got -> niche (ind j) = niche (ind i) -> ~ dominates (obj (ind j)) (obj (ind i)).
  Lemma pick_ok k got : k < n -> da_ok got -> avail got k <> [] -> length got < n -> da_ok (got ++ [best_of d obj fv ff Hd (avail got k)]).
  Proof.
    intros Hk (D1 & D2 & D3 & D4) Hne HL. destruct (best_spec (avail got k) Hne) as [B1 B2]; [intros i Hi; apply avail_In in Hi; tauto|]. set (b := best_of d obj fv ff Hd (avail got k)) in *.
    pose proof B1 as B. apply avail_In in B as (B3 & B4 & B5). split; [|split; [|split]].
    - apply NoDup_app_iff. split; auto. split; [repeat constructor; intros []|]. intros x Hx [<-|[]]. contradiction.
    - intros i Hi. apply in_app_iff in Hi as [Hi|[<-|[]]]; auto. split; auto. lia.
    - rewrite app_length. simpl. lia.
    - intros i j Hi Hj Hnj Hn. assert (Hnj' : ~ In j got) by (intros C; apply Hnj, in_app_iff; auto). apply in_app_iff in Hi as [Hi|[<-|[]]]; [apply D4; auto|]. apply B2. apply avail_In. split; auto. split; [congruence|auto].
  Qed.
  Lemma da_niche_spec k c : k < n -> forall got, da_ok got -> da_ok (da_niche d obj niche fv ff Hd n c k got) /\ incl got (da_niche d obj niche fv ff Hd n c k got) /\
    length got <= length (da_niche d obj niche fv ff Hd n c k got) /\
    (0 < c -> avail got k <> [] -> length got < n -> length got < length (da_niche d obj niche fv ff Hd n c k got)).
  Proof.
    intros Hk. induction c as [|c IH]; intros got HG; cbn [da_niche]; [split; auto; split; [apply incl_refl|]; split; [lia|lia]|].
    destruct (avail got k) as [|a l] eqn:EA; [split; auto; split; [apply incl_refl|]; split; [lia|congruence]|].
    destruct (Nat.ltb_spec (length got) n) as [L|L].
    - assert (HP : da_ok (got ++ [best_of d obj fv ff Hd (a :: l)])) by (rewrite <- EA; apply pick_ok; auto; rewrite EA; discriminate).
      destruct (IH _ HP) as (I1 & I2 & I3 & _). split; auto. split; [intros i Hi; apply I2, in_app_iff; auto|]. rewrite app_length in I3. simpl in I3. split; [lia|]. intros. lia.
    - destruct (IH _ HG) as (I1 & I2 & I3 & _). split; auto. split; auto. split; [auto|]. intros. lia.
  Qed.
  Lemma da_round_spec itr got : da_ok got -> da_ok (da_round d obj niche fv ff ca Hd n itr got) /\ length got <= length (da_round d obj niche fv ff ca Hd n itr got) /\
    (length ca < itr -> length got < n -> (exists i, i < length Hd /\ niche (ind i) < n /\ ~ In i got) -> length got < length (da_round d obj niche fv ff ca Hd n itr got)).
  Proof.
    unfold da_round. intros HG.
    assert (HF : forall ks got, (forall k, In k ks -> k < n) -> da_ok got ->
      let g' := fold_left (fun got k => da_niche d obj niche fv ff Hd n (itr - ca_count niche ca k) k got) ks got in
      da_ok g' /\ incl got g' /\ length got <= length g' /\ (length ca < itr -> length got < n -> (exists k, In k ks /\ avail got k <> []) -> length got < length g')).
    { clear got HG. induction ks as [|k ks IH]; intros got Hks HG; cbn [fold_left]; cbv zeta; [split; auto; split; [apply incl_refl|]; split; [lia|intros _ _ (k & [] & _)]|].
      destruct (da_niche_spec k (itr - ca_count niche ca k) ltac:(apply Hks; left; auto) got HG) as (N1 & N2 & N3 & N4). set (g1 := da_niche d obj niche fv ff Hd n (itr - ca_count niche ca k) k got) in *.
      destruct (IH g1 ltac:(intros; apply Hks; right; auto) N1) as (I1 & I2 & I3 & I4). split; auto. split; [eapply incl_tran; eauto|]. split; [lia|].
      intros Hc HL (k' & Hk' & HA). destruct (le_lt_dec (length g1) (length got)) as [L|L]; [|lia].
      destruct Hk' as [<-|Hk'].
      - exfalso. assert (length got < length g1); [|lia]. apply N4; auto. assert (ca_count niche ca k <= length ca) by (unfold ca_count; apply filter_length_le). lia.
      - assert (HGe : forall i, In i g1 -> In i got). { intros i Hi. apply (NoDup_length_incl (proj1 HG) L N2 i Hi). }
        assert (length g1 < length (fold_left (fun got0 k0 => da_niche d obj niche fv ff Hd n (itr - ca_count niche ca k0) k0 got0) ks g1)); [|lia]. apply I4; [auto|lia|]. exists k'. split; auto.
        destruct (avail got k') as [|x l] eqn:EA; [congruence|]. assert (Hx : In x (avail got k')) by (rewrite EA; left; auto). apply avail_In in Hx as (X1 & X2 & X3).
        intros C. assert (Hx : In x (avail g1 k')) by (apply avail_In; split; auto). rewrite C in Hx. destruct Hx. }
    destruct (HF (seq 0 n) got) as (F1 & F2 & F3 & F4); auto; [intros k Hk; apply in_seq in Hk; lia|]. split; auto. split; auto.
    intros Hc HL (i & Hi & Hin & Hni). apply F4; auto. exists (niche (ind i)). split; [apply in_seq; lia|]. intros C. assert (H : In i (avail got (niche (ind i)))) by (apply avail_In; auto). rewrite C in H. destruct H.
  Qed.
  Lemma da_loop_ok fuel : forall itr got out, da_ok got -> da_loop d obj niche fv ff ca Hd n fuel itr got = Some out -> da_ok out /\ length out = n.
  Proof.
    induction fuel as [|fuel IH]; intros itr got out HG H; cbn [da_loop] in H; destruct (Nat.ltb_spec (length got) n); try discriminate;
      try (injection H as <-; split; auto; destruct HG as (_ & _ & HG & _); lia).
    eapply IH; [|exact H]. apply da_round_spec, HG.
  Qed.
  Definition usable : list nat := filter (fun i => niche (ind i) <? n) (seq 0 (length Hd)).
  Lemma usable_In i : In i usable <-> i < length Hd /\ niche (ind i) < n.
  Proof. unfold usable. rewrite filter_In, in_seq, Nat.ltb_lt. intuition lia. Qed.
  Lemma da_loop_terminates : n <= length usable -> forall fuel itr got, da_ok got -> length ca - (itr - 1) + (n - length got) <= fuel -> 0 < itr -> exists out, da_loop d obj niche fv ff ca Hd n fuel itr got = Some out.
  Proof.
    intros HU. induction fuel as [|fuel IH]; intros itr got HG HF Hi; cbn [da_loop]; destruct (Nat.ltb_spec (length got) n) as [L|L]; eauto; [lia|].
    destruct (da_round_spec itr got HG) as (R1 & R2 & R3). apply IH; auto. destruct (le_lt_dec itr (length ca)) as [Hc|Hc]; [lia|].
    assert (HE : exists i, i < length Hd /\ niche (ind i) < n /\ ~ In i got).
    { destruct (existsb (fun i => negb (existsb (Nat.eqb i) got)) usable) eqn:E.
      - apply existsb_exists in E as (i & Hi' & E). exists i. apply usable_In in Hi' as [H1 H2]. split; auto. split; auto. intros C. apply negb_true_iff in E. assert (existsb (Nat.eqb i) got = true); [|congruence]. apply existsb_exists. exists i. split; auto. apply Nat.eqb_refl.
      - exfalso. assert (HI : incl usable got).
        { intros i Hi'. destruct (in_dec Nat.eq_dec i got) as [|C]; auto. assert (E' : existsb (fun i => negb (existsb (Nat.eqb i) got)) usable = true); [|congruence]. apply existsb_exists. exists i. split; auto. apply negb_true_iff. destruct (existsb (Nat.eqb i) got) eqn:E'; auto. apply existsb_exists in E' as (x & Hx & Ex). apply Nat.eqb_eq in Ex. subst x. contradiction. }
        assert (HN : NoDup usable) by (apply NoDup_filter, seq_NoDup). pose proof (NoDup_incl_length HN HI). lia. }
    specialize (R3 Hc L HE). lia.
  Qed.
  Lemma da_init : da_ok [].
  Proof. split; [constructor|]. split; [intros i []|]. split; [simpl; lia|]. intros i j []. Qed.

  (** C83: the diversity archive holds exactly n different entries of the candidates; no entry left out in the same region dominates one taken *)
  Theorem C83_da fuel out : update_da d obj niche fv ff ca Hd n fuel = Some out ->
    S_Survival.selects (length Hd) n out /\ forall i j, In i out -> j < length Hd -> ~ In j out -> niche (ind j) = niche (ind i) -> ~ dominates (obj (ind j)) (obj (ind i)).
  Proof.
    intros H. destruct (da_loop_ok _ _ _ _ da_init H) as [(D1 & D2 & D3 & D4) HL]. split; [split; [auto|split; [intros i Hi; apply D2, Hi|auto]]|]. auto.
  Qed.
  (** C83: its update ends - after at most |CA| + n rounds - exactly if n of the candidates lie in one of the first n regions; otherwise it never ends *)
  Theorem C83_da_terminates :
    (n <= length (filter (fun i => niche (ind i) <? n) (seq 0 (length Hd))) -> forall fuel, length ca + n <= fuel -> exists out, update_da d obj niche fv ff ca Hd n fuel = Some out) /\
    (length (filter (fun i => niche (ind i) <? n) (seq 0 (length Hd))) < n -> forall fuel, update_da d obj niche fv ff ca Hd n fuel = None).
  Proof.
    split.
    - intros HU fuel HF. apply da_loop_terminates; auto; [apply da_init|simpl; lia].
    - intros HU fuel. destruct (update_da d obj niche fv ff ca Hd n fuel) as [out|] eqn:E; auto. exfalso. destruct (da_loop_ok _ _ _ _ da_init E) as [(D1 & D2 & _) HL].
      assert (length out <= length usable) by (apply NoDup_incl_length; auto; intros i Hi; apply usable_In, D2, Hi). unfold usable in *. lia.
  Qed.
End DA.
