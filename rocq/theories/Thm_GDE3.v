(** * Theorems C91 (GDE3) and C11 (NSGA-II over many generations): what the populations keep *)
From Coq Require Import List Arith Permutation Bool ZArith QArith Lia Floats.SpecFloat.
From Verif Require Import Flt ListAux NpSort M_Dominator M_NDS M_Survival M_GDE3 S_Pareto S_NDS S_Survival P_Peel P_Dominator P_NDS1 P_Survival P_Survival2 P_Survival3 P_Survival4 Thm_Survival.
Import ListNotations.
Local Open Scope nat_scope.

(** ** specification *)
Section Spec.
  Context {A : Type}.
  Variables (d : A) (cv : A -> flt) (feas : A -> bool) (obj : A -> list flt) (m : nat).
  (** less violation wins; with equal violation the objectives decide *)
  Definition beats (a b : A) : Prop := constr_dominates (cv a) (obj a) (cv b) (obj b).
  Definition unbeaten_in (L : list A) (a : A) : Prop := forall b, In b L -> ~ beats b a.
  (** evaluated: m objectives, no NaN; a feasible individual has the (equal) violation zero, an infeasible one more; without constraints all are feasible *)
  Definition evaluated (hc : bool) (L : list A) : Prop :=
    Forall (fun a => row_ok m (obj a) /\ isnan (cv a) = false) L /\
    (forall a b, In a L -> In b L -> feas a = true -> feas b = true -> feqb (cv a) (cv b) = true) /\
    (forall a b, In a L -> In b L -> feas a = true -> feas b = false -> fltb (cv a) (cv b) = true) /\
    (hc = false -> forall a, In a L -> feas a = true).
  (** [a] is still there, or a better individual is *)
  Definition covered (P : list A) (a : A) : Prop := exists p, In p P /\ (p = a \/ beats p a).
  (** the feasible individuals which no other beats, at most [n] of them (counted as members, not as values) *)
  Definition fits (n : nat) (L : list A) : Prop :=
    forall J, NoDup J -> (forall i, In i J -> i < length L /\ feas (nth i L d) = true /\ unbeaten_in L (nth i L d)) -> length J <= n.
End Spec.

Section Proofs.
  Context {A : Type}.
  Variables (d : A) (cv : A -> flt) (feas : A -> bool) (obj : A -> list flt) (m : nat).
  Variables (asort dsort : list flt -> list nat) (nds : fltmat -> nat -> list (list nat)) (crowding : fltmat -> nat -> list flt).
  Hypotheses (Ha : asort_ok asort) (Hd : dsort_ok dsort) (Hc : forall M r, length (crowding M r) = length M) (Hn : nds_ok m nds).
  Notation beats := (beats cv obj).
  Notation unbeaten_in := (unbeaten_in cv obj).
  Notation inner := (rac_inner obj dsort nds crowding).

  Lemma ev_ok hc L a : evaluated cv feas obj m hc L -> In a L -> length (obj a) = m /\ vec_ok (obj a) /\ isnan (cv a) = false.
  Proof. intros (H & _) Ha'. rewrite Forall_forall in H. destruct (H a Ha') as [[H1 H2] H3]. auto. Qed.
  Lemma ev_incl hc L K : incl K L -> evaluated cv feas obj m hc L -> evaluated cv feas obj m hc K.
  Proof.
    intros HI (H1 & H2 & H3 & H4). rewrite Forall_forall in H1. split; [apply Forall_forall; auto|]. split; [auto|]. split; auto.
  Qed.
  Lemma beats_trans a b c : beats a b -> beats b c -> beats a c.
  Proof. apply constr_dominates_trans. Qed.
  Lemma beats_irrefl a : ~ beats a a.
  Proof. apply constr_dominates_irrefl. Qed.
  Lemma beats_rel hc L a b : evaluated cv feas obj m hc L -> In a L -> In b L -> (get_relation_ind (obj a, cv a) (obj b, cv b) = 1%Z <-> beats a b) /\ (get_relation_ind (obj a, cv a) (obj b, cv b) = (-1)%Z <-> beats b a).
  Proof.
    intros HE H1 H2. destruct (ev_ok _ _ _ HE H1) as (A1 & A2 & A3). destruct (ev_ok _ _ _ HE H2) as (B1 & B2 & B3). unfold get_relation_ind. cbn [fst snd].
    destruct (get_relation_constr_spec (obj a) (obj b) (cv a) (cv b)) as (R1 & R2 & _); auto. congruence.
  Qed.
  Lemma beats_dec hc L a b : evaluated cv feas obj m hc L -> In a L -> In b L -> beats a b \/ ~ beats a b.
  Proof. intros HE H1 H2. destruct (beats_rel hc L a b HE H1 H2) as [R _]. destruct (Z.eq_dec (get_relation_ind (obj a, cv a) (obj b, cv b)) 1); tauto. Qed.
  (** every member is unbeaten or beaten by an unbeaten one *)
  Lemma unbeaten_above hc L : evaluated cv feas obj m hc L -> forall K c, incl K L -> In c L -> exists u, In u (c :: K) /\ (u = c \/ beats u c) /\ forall b, In b K -> ~ beats b u.
  Proof.
    intros HE. induction K as [|b K IH]; intros c HI Hcl; [exists c; split; [now left|split; [now left|intros b []]]|].
    destruct (IH c) as (u & U1 & U2 & U3); [intros x Hx; apply HI; now right|auto|]. assert (HuL : In u L) by (destruct U1 as [<-|U1]; [auto|apply HI; now right]).
    destruct (beats_dec hc L b u HE (HI b (or_introl eq_refl)) HuL) as [HB|HB].
    - exists b. split; [right; now left|]. split; [right; destruct U2 as [->|U2]; [auto|now apply beats_trans with u]|]. intros x [<-|Hx] Hxb; [now apply beats_irrefl in Hxb|]. apply (U3 x Hx). now apply beats_trans with b.
    - exists u. split; [destruct U1 as [U1|U1]; [now left|right; now right]|]. split; auto. intros x [<-|Hx]; auto.
  Qed.
  Lemma cv_zero hc L a b : evaluated cv feas obj m hc L -> In a L -> In b L -> feas a = true -> feas b = true -> (beats a b <-> dominates (obj a) (obj b)).
  Proof.
    intros (_ & H2 & _) HA HB FA FB. specialize (H2 a b HA HB FA FB). split; [intros [H|[_ H]]; auto|right; auto]. exfalso. rewrite feq_sym in H2. apply feq_le, fle_not_lt in H2. congruence.
  Qed.
  Lemma beater_feasible hc L a b : evaluated cv feas obj m hc L -> In a L -> In b L -> feas b = true -> beats a b -> feas a = true.
  Proof.
    intros HE HA HB FB HBt. destruct (feas a) eqn:E; auto. exfalso. pose proof HE as (_ & _ & H3 & _). specialize (H3 b a HB HA FB E). destruct HBt as [H|[H _]].
    - rewrite (flt_asym _ _ H3) in H. discriminate.
    - apply feq_le, fle_not_lt in H. congruence.
  Qed.
  (** ** the survival: a feasible unbeaten individual is lost only if all survivors are feasible and unbeaten *)
  Lemma rac_elite pop n i j : pop <> [] -> Forall (fun a => row_ok m (obj a)) pop -> n <= length pop -> In i (inner pop n) -> j < length pop -> ~ In j (inner pop n) ->
    (forall k, k < length pop -> ~ dominates (obj (nth k pop d)) (obj (nth j pop d))) -> forall k, k < length pop -> ~ dominates (obj (nth k pop d)) (obj (nth i pop d)).
  Proof.
    intros Hne Hw Hle Hi Hj Hnj Hun. destruct (P_Survival3.rows_ok m obj pop Hw) as [HR HM]. set (F := map obj pop). assert (LF : length F = length pop) by (unfold F; apply map_length).
    assert (EF : forall k, k < length pop -> nth k F [] = obj (nth k pop d)). { intros k Hk. unfold F. rewrite (nth_indep (map obj pop) [] (obj d)) by (now rewrite map_length). apply map_nth. }
    destruct (C11_rank_and_crowding m F crowding dsort nds n Hc Hd Hn) as (R1 & _ & R3); auto; [unfold F; destruct pop; [congruence|discriminate]|lia|]. rewrite LF in *.
    assert (Hil : i < length pop) by (apply R1; exact Hi). destruct (C11_rank_exists_unique m F i HR HM ltac:(lia)) as [(ri & Hri) _].
    assert (Hrj : pareto_rank F j 0). { destruct (C11_rank_exists_unique m F j HR HM ltac:(lia)) as [(rj & full & HP & Hf) _]. exists full. split; auto. pose proof HP as (_ & _ & HF). pose proof (nth_In_lt _ _ _ Hf) as Hlt. apply HF; [lia|]. split; [lia|]. split; [intros (k & Hk & _); lia|]. rewrite LF. intros k Hk _. unfold row_dom. rewrite !EF by auto. auto. }
    assert (E0 : ri = 0). { destruct (R3 i j ri 0 Hi ltac:(lia) Hnj Hri Hrj) as [H _]. lia. }
    subst ri. destruct Hri as (full & (_ & _ & HF) & Hf). pose proof (nth_In_lt _ _ _ Hf) as Hlt. apply (HF 0 i Hlt) in Hf as (_ & _ & Hf). rewrite LF in Hf. intros k Hk. rewrite <- !EF by auto. apply (Hf k Hk). intros (k' & Hk' & _). lia.
  Qed.
  Lemma inner_is_ok : inner_ok (fun a => row_ok m (obj a)) inner.
  Proof.
    intros p n Hne Hwf Hle. destruct (P_Survival3.rows_ok m obj p Hwf) as [R1 R2]. unfold rac_inner. destruct (C11_rank_and_crowding m (map obj p) crowding dsort nds n Hc Hd Hn) as [R _]; auto; [destruct p; [congruence|discriminate]|now rewrite map_length|]. now rewrite map_length in R at 1.
  Qed.
  Notation surv hc n pop := (survival_do d cv feas asort inner true hc (Some n) pop).
  Lemma surv_basic hc n pop : evaluated cv feas obj m hc pop -> selects (length pop) (Nat.min n (length pop)) (surv hc n pop).
  Proof.
    intros HE. destruct (survival_do_spec d cv feas asort Ha (fun a => row_ok m (obj a)) inner true hc (Some n) pop) as [H _]; auto; [apply inner_is_ok|]. destruct HE as (HE & _). eapply Forall_impl; [|exact HE]. cbn. tauto.
  Qed.
  Lemma surv_elite hc n pop i j : evaluated cv feas obj m hc pop -> j < length pop -> feas (nth j pop d) = true -> unbeaten_in pop (nth j pop d) -> ~ In j (surv hc n pop) -> In i (surv hc n pop) ->
    feas (nth i pop d) = true /\ unbeaten_in pop (nth i pop d).
  Proof.
    intros HE Hj Fj Uj Nj Hi. assert (Hw : Forall (fun a => row_ok m (obj a)) pop) by (destruct HE as (HE & _); eapply Forall_impl; [|exact HE]; cbn; tauto).
    destruct (surv_basic hc n pop HE) as (B1 & B2 & B3). assert (Hil := B2 i Hi). assert (HIn : forall k, k < length pop -> In (nth k pop d) pop) by (intros; now apply nth_In).
    assert (Fi : feas (nth i pop d) = true). { destruct hc; [|destruct HE as (_ & _ & _ & H); auto]. destruct (feas (nth i pop d)) eqn:E; auto. exfalso. apply Nj. destruct (survival_do_spec d cv feas asort Ha (fun a => row_ok m (obj a)) inner true true (Some n) pop inner_is_ok Hw) as [_ H]. now apply (proj1 (H eq_refl eq_refl) i j). }
    split; auto. unfold survival_do in Hi, Nj. destruct (Nat.eqb_spec (length pop) 0); [lia|]. cbv zeta in Hi, Nj. set (n1 := Nat.min n (length pop)) in *. destruct hc; cbn [andb] in Hi, Nj.
    - pose proof (split_spec d cv feas asort Ha pop) as HS. destruct (split_by_feasibility d cv feas asort pop) as [fe infe]. destruct HS as (F1 & F2 & F3 & F4 & F5 & _).
      set (sv := if length fe =? 0 then [] else gather 0 fe (inner (gather d pop fe) (Nat.min (length fe) n1))) in *.
      assert (Hisv : In i sv). { destruct (0 <? n1 - length sv); auto. apply in_app_iff in Hi as [Hi|Hi]; auto. exfalso. apply firstn_In, F4 in Hi. destruct Hi. congruence. }
      assert (Hjsv : ~ In j sv) by (intros H; apply Nj; destruct (0 <? n1 - length sv); auto; apply in_or_app; now left).
      assert (Hjf : In j fe) by (apply F3; auto). unfold sv in Hisv, Hjsv. destruct (Nat.eqb_spec (length fe) 0) as [E0|E0]; [destruct Hisv|]. set (pf := gather d pop fe) in *.
      assert (Lf : length pf = length fe) by apply length_gather. assert (Ef : forall k, k < length fe -> nth k pf d = nth (nth k fe 0) pop d) by (intros; now apply nth_gather).
      apply In_gather in Hisv as (a & Ha1 & Ha2). apply (In_nth _ _ 0) in Hjf as (b & Hb1 & Hb2). assert (Hbn : ~ In b (inner pf (Nat.min (length fe) n1))) by (intros H; apply Hjsv, In_gather; exists b; auto).
      assert (Hwf : Forall (fun a => row_ok m (obj a)) pf). { apply Forall_forall. intros x Hx. rewrite Forall_forall in Hw. apply in_map_iff in Hx as (k & <- & Hk). apply Hw, HIn, F3, Hk. }
      assert (Hpf : pf <> []) by (intros E; rewrite E in Lf; cbn in Lf; lia).
      assert (Hal : a < length pf). { destruct (inner_is_ok pf (Nat.min (length fe) n1) Hpf Hwf ltac:(lia)) as (_ & H & _). auto. }
      intros x Hx Hxi. assert (Fx : feas x = true) by (apply (beater_feasible true pop x (nth i pop d)); auto). apply (In_nth _ _ d) in Hx as (k & Hk & <-). assert (Hkf : In k fe) by (apply F3; auto). apply (In_nth _ _ 0) in Hkf as (c & Hc1 & Hc2).
      apply (rac_elite pf (Nat.min (length fe) n1) a b Hpf Hwf ltac:(lia) Ha1 ltac:(lia) Hbn) with (k := c); [|lia|].
      + intros k' Hk' HD. rewrite !Ef in HD by lia. rewrite Hb2 in HD. assert (HI' : In (nth k' fe 0) fe) by (apply nth_In; lia). apply F3 in HI' as [HI1 HI2]. apply (Uj (nth (nth k' fe 0) pop d)); auto. eapply (cv_zero true pop); auto.
      + rewrite !Ef by lia. rewrite Ha2, Hc2. eapply (cv_zero true pop); eauto.
    - intros x Hx Hxi. assert (Fx : feas x = true) by (destruct HE as (_ & _ & _ & H); auto). apply (In_nth _ _ d) in Hx as (k & Hk & <-).
      apply (rac_elite pop n1 i j) with (k := k); auto; [destruct pop; [cbn in *; lia|discriminate]|unfold n1; lia| |eapply (cv_zero false pop); eauto].
      intros k' Hk' HD. apply (Uj (nth k' pop d)); auto. eapply (cv_zero false pop); eauto. destruct HE as (_ & _ & _ & H); auto.
  Qed.
  Lemma surv_violation hc n pop c : evaluated cv feas obj m hc pop -> 0 < n -> c < length pop -> exists s, In s (surv hc n pop) /\ fleb (cv (nth s pop d)) (cv (nth c pop d)) = true.
  Proof.
    intros HE Hn0 Hcl. assert (Hw : Forall (fun a => row_ok m (obj a)) pop) by (destruct HE as (HE & _); eapply Forall_impl; [|exact HE]; cbn; tauto).
    destruct (surv_basic hc n pop HE) as (B1 & B2 & B3). assert (HIn : forall k, k < length pop -> In (nth k pop d) pop) by (intros; now apply nth_In).
    destruct (in_dec Nat.eq_dec c (surv hc n pop)) as [|Nc]; [exists c; split; auto; apply fle_refl; eapply ev_ok; eauto|].
    destruct (surv hc n pop) as [|s S0] eqn:ES; [cbn in B3; lia|]. exists s. split; [now left|]. assert (Hsl : s < length pop) by (apply B2; now left). rewrite <- ES in *. assert (Hs : In s (surv hc n pop)) by (rewrite ES; now left).
    pose proof HE as (_ & H2 & H3 & H4). destruct (feas (nth c pop d)) eqn:Fc, (feas (nth s pop d)) eqn:Fs.
    - apply feq_le. auto.
    - destruct hc; [|rewrite H4 in Fs; auto; discriminate]. exfalso. apply Nc. destruct (survival_do_spec d cv feas asort Ha (fun a => row_ok m (obj a)) inner true true (Some n) pop inner_is_ok Hw) as [_ H]. now apply (proj1 (H eq_refl eq_refl) s c).
    - apply flt_le. auto.
    - destruct hc; [|rewrite H4 in Fs; auto; discriminate]. destruct (survival_do_spec d cv feas asort Ha (fun a => row_ok m (obj a)) inner true true (Some n) pop inner_is_ok Hw) as [_ H]. apply nlt_le; [eapply ev_ok; eauto|eapply ev_ok; eauto|]. now apply (proj2 (H eq_refl eq_refl) s c).
  Qed.

  (** ** survival applied to a pool that dominates everybody left out *)
  Section Pool.
    Variables (hc : bool) (n : nat) (all : list A) (pool : list nat).
    Hypotheses (HE : evaluated cv feas obj m hc all) (HND : NoDup pool) (Hlt : forall p, In p pool -> p < length all).
    Hypothesis Hout : forall p, p < length all -> ~ In p pool -> exists q, In q pool /\ beats (nth q all d) (nth p all d).
    Definition next : list nat := gather 0 pool (surv hc n (gather d all pool)).
    Lemma pool_ev : evaluated cv feas obj m hc (gather d all pool).
    Proof. eapply ev_incl; [|exact HE]. intros x Hx. apply in_map_iff in Hx as (p & <- & Hp). apply nth_In; auto. Qed.
    Lemma next_basic : selects (length all) (Nat.min n (length pool)) next.
    Proof.
      destruct (surv_basic hc n _ pool_ev) as (B1 & B2 & B3). rewrite length_gather in B2, B3. unfold next. split; [now apply NoDup_gather|]. split; [|now rewrite length_gather]. intros i Hi. apply In_gather in Hi as (k & Hk & <-). apply Hlt, nth_In. auto.
    Qed.
    Lemma next_pool i : In i next -> In i pool.
    Proof. intros Hi. apply In_gather in Hi as (k & Hk & <-). apply nth_In. destruct (surv_basic hc n _ pool_ev) as (B1 & B2 & B3). rewrite length_gather in B2. auto. Qed.
    Lemma next_elite c i : c < length all -> feas (nth c all d) = true -> unbeaten_in all (nth c all d) -> ~ In c next -> In i next -> feas (nth i all d) = true /\ unbeaten_in all (nth i all d).
    Proof.
      intros Hcl Fc Uc Nc Hi. assert (Hcp : In c pool). { destruct (in_dec Nat.eq_dec c pool) as [|H]; auto. exfalso. destruct (Hout c Hcl H) as (q & Hq & HB). apply (Uc (nth q all d)); auto. apply nth_In; auto. }
      apply (In_nth _ _ 0) in Hcp as (b & Hb1 & Hb2). pose proof (next_pool i Hi) as Hip. apply In_gather in Hi as (a & Ha1 & Ha2). set (P := gather d all pool) in *. assert (LP : length P = length pool) by apply length_gather.
      assert (EP : forall k, k < length pool -> nth k P d = nth (nth k pool 0) all d) by (intros; now apply nth_gather). assert (Hal : a < length pool) by (destruct (surv_basic hc n _ pool_ev) as (_ & H & _); fold P in H; rewrite LP in H; auto).
      assert (HP : incl P all) by (intros x Hx; apply in_map_iff in Hx as (p & <- & Hp); apply nth_In; auto).
      destruct (surv_elite hc n P a b pool_ev) as [F U]; auto; [lia|rewrite EP, Hb2; auto|rewrite EP, Hb2 by auto; intros x Hx; apply Uc, HP, Hx|intros H; apply Nc, In_gather; exists b; auto|].
      rewrite EP, Ha2 in F, U by auto. split; auto. intros x Hx HB. apply (In_nth _ _ d) in Hx as (p & Hp & <-). destruct (in_dec Nat.eq_dec p pool) as [H|H].
      - apply (U (nth p all d)); auto. apply in_map_iff. eauto.
      - destruct (Hout p Hp H) as (q & Hq & HB'). apply (U (nth q all d)); [apply in_map_iff; eauto|]. now apply beats_trans with (nth p all d).
    Qed.
    Lemma next_violation c : 0 < n -> c < length all -> exists s, In s next /\ fleb (cv (nth s all d)) (cv (nth c all d)) = true.
    Proof.
      intros Hn0 Hcl. assert (HX : exists q, In q pool /\ fleb (cv (nth q all d)) (cv (nth c all d)) = true).
      { destruct (in_dec Nat.eq_dec c pool) as [H|H]; [exists c; split; auto; apply fle_refl; eapply ev_ok; eauto; now apply nth_In|]. destruct (Hout c Hcl H) as (q & Hq & [HB|[HB _]]); exists q; split; auto; [now apply flt_le|now apply feq_le]. }
      destruct HX as (q & Hq & HF). apply (In_nth _ _ 0) in Hq as (b & Hb1 & Hb2). destruct (surv_violation hc n _ b pool_ev Hn0) as (s & Hs & HL); [now rewrite length_gather|]. destruct (surv_basic hc n _ pool_ev) as (_ & B2 & _). rewrite length_gather in B2.
      exists (nth s pool 0). split; [apply In_gather; eauto|]. rewrite !nth_gather in HL by auto. rewrite Hb2 in HL. eapply fle_trans; eauto.
    Qed.
    Lemma next_covers c : n <= length pool -> fits d cv feas obj n all -> In c all -> feas c = true -> covered cv obj (gather d all next) c.
    Proof.
      intros Hnp HF Hca Fc. destruct (unbeaten_above hc all HE all c (incl_refl _) Hca) as (u & U1 & U2 & U3). assert (Hua : In u all) by (destruct U1 as [<-|]; auto).
      assert (Fu : feas u = true) by (destruct U2 as [->|U2]; auto; apply (beater_feasible hc all u c); auto). apply (In_nth _ _ d) in Hua as (k & Hk & Ek). destruct next_basic as (B1 & B2 & B3).
      destruct (in_dec Nat.eq_dec k next) as [Hin|Hni]; [exists u; split; auto; apply in_map_iff; exists k; auto|]. exfalso.
      assert (HL : length (k :: next) <= n). { apply HF; [now constructor|]. intros i [<-|Hi]; [rewrite Ek; auto|]. split; auto. apply (next_elite k i); auto; rewrite Ek; auto. } cbn [length] in HL. lia.
    Qed.
  End Pool.
End Proofs.

Section Step.
  Context {A : Type}.
  Variables (d : A) (cv : A -> flt) (obj : A -> list flt).
  Notation slot := (gde3_slot d cv obj).
  Lemma slot_In pop infills k p : In p (slot pop infills k) -> p = k \/ p = length pop + k.
  Proof. unfold gde3_slot. destruct (Z.eqb _ 0); [cbn; intuition|]. destruct (Z.eqb _ (-1)); cbn; intuition. Qed.
  Lemma slot_NoDup pop infills k : 0 < length pop -> NoDup (slot pop infills k).
  Proof.
    intros H. unfold gde3_slot. destruct (Z.eqb _ 0); [constructor; [intros [E|[]]; lia|constructor; [intros []|constructor]]|]. destruct (Z.eqb _ (-1)); constructor; auto; constructor.
  Qed.
  Lemma slots_NoDup pop infills n : forall s, s + n <= length pop -> NoDup (flat_map (slot pop infills) (seq s n)).
  Proof.
    induction n as [|n IH]; intros s Hs; [constructor|]. cbn [seq flat_map]. apply NoDup_app_iff. split; [apply slot_NoDup; lia|]. split; [apply IH; lia|]. intros x H1 H2. apply in_flat_map in H2 as (k & Hk & H2). apply in_seq in Hk. apply slot_In in H1. apply slot_In in H2. lia.
  Qed.
  Lemma slots_len pop infills l : length l <= length (flat_map (slot pop infills) l) <= 2 * length l.
  Proof.
    induction l as [|k l IH]; [cbn; lia|]. cbn [flat_map]. rewrite app_length. assert (1 <= length (slot pop infills k) <= 2); [|cbn [length]; lia]. unfold gde3_slot. destruct (Z.eqb _ 0); [cbn; lia|]. destruct (Z.eqb _ (-1)); cbn; lia.
  Qed.
End Step.

(** C91: one generation of GDE3: it raises exactly when there are fewer offspring than parents; a solution is left out of the pool only if the opponent of its slot, which is in the pool, beats it; the
    next population holds n different members of the pool *)
Theorem C91_duels : forall (A : Type) (d : A) cv feas obj m asort dsort nds crowding hc n (pop infills : list A),
  asort_ok asort -> dsort_ok dsort -> (forall M r, length (crowding M r) = length M) -> nds_ok m nds ->
  (length infills < length pop <-> gde3_advance d cv feas obj asort dsort nds crowding hc n pop infills = None) /\
  (length infills = length pop -> evaluated cv feas obj m hc (pop ++ infills) -> exists pool S,
     gde3_pool d cv obj pop infills = Some pool /\ gde3_advance d cv feas obj asort dsort nds crowding hc n pop infills = Some S /\
     NoDup pool /\ length pop <= length pool <= 2 * length pop /\
     (forall k, k < length pop -> (In k pool <-> ~ beats cv obj (nth k infills d) (nth k pop d)) /\ (In (length pop + k) pool <-> ~ beats cv obj (nth k pop d) (nth k infills d))) /\
     incl S pool /\ selects (length pop + length infills) (Nat.min n (length pool)) S).
Proof.
  intros A d cv feas obj m asort dsort nds crowding hc n pop infills Ha Hd Hc Hn. split.
  - unfold gde3_advance, gde3_pool. destruct (Nat.ltb_spec (length infills) (length pop)); cbn; split; intros; auto; try discriminate; lia.
  - intros HL HE. unfold gde3_advance, gde3_pool. destruct (Nat.ltb_spec (length infills) (length pop)); [lia|]. cbn [option_map]. set (pool := flat_map (gde3_slot d cv obj pop infills) (seq 0 (length pop))). set (all := pop ++ infills) in *. assert (La : length all = length pop + length infills) by (unfold all; apply app_length).
    assert (ND : NoDup pool) by (apply slots_NoDup; apply le_n). assert (PL : length pop <= length pool <= 2 * length pop) by (pose proof (slots_len d cv obj pop infills (seq 0 (length pop))) as H0; now rewrite seq_length in H0).
    assert (HS : forall k, k < length pop -> (In k pool <-> In k (gde3_slot d cv obj pop infills k)) /\ (In (length pop + k) pool <-> In (length pop + k) (gde3_slot d cv obj pop infills k))).
    { intros k Hk. unfold pool. split; rewrite in_flat_map; (split; [intros (k' & Hk' & H1); apply in_seq in Hk'; assert (E : k = k') by (apply slot_In in H1; lia); now rewrite <- E in H1|intros H1; exists k; split; auto; apply in_seq; lia]). }
    assert (HP : forall p, In p pool -> p < length all). { intros p Hp. apply in_flat_map in Hp as (k & Hk & Hp). apply in_seq in Hk. apply slot_In in Hp. lia. }
    assert (HI : forall k, k < length pop -> In (nth k pop d) all /\ In (nth k infills d) all) by (intros k Hk; unfold all; rewrite !in_app_iff; split; [left|right]; apply nth_In; lia).
    assert (HD : forall k, k < length pop -> (In k pool <-> ~ beats cv obj (nth k infills d) (nth k pop d)) /\ (In (length pop + k) pool <-> ~ beats cv obj (nth k pop d) (nth k infills d))).
    { intros k Hk. destruct (HS k Hk) as [H1 H2]. destruct (HI k Hk) as [I1 I2]. destruct (beats_rel cv feas obj m hc all _ _ HE I1 I2) as [R1 R2]. rewrite H1, H2, <- R1, <- R2. unfold gde3_slot. set (r := get_relation_ind _ _).
      assert (HR : r = 0%Z \/ r = 1%Z \/ r = (-1)%Z) by (unfold r, get_relation_ind; apply get_relation_range). destruct HR as [-> | [-> | ->]]; cbn [Z.eqb Pos.eqb In]; (split; split; [intros HH|intros HH|intros HH|intros HH]); try lia; intuition (try lia). }
    exists pool, (next d cv feas obj asort dsort nds crowding hc n all pool). split; auto. split; auto. split; auto. split; auto. split; auto. split.
    + intros i Hi. eapply next_pool; eauto.
    + rewrite <- La. eapply next_basic; eauto.
Qed.

(** the duels put a pool in front of the survival that beats everything left out *)
Lemma pool_out {A} (d : A) cv feas obj m hc (pop infills : list A) pool : length infills = length pop -> evaluated cv feas obj m hc (pop ++ infills) ->
  (forall k, k < length pop -> (In k pool <-> ~ beats cv obj (nth k infills d) (nth k pop d)) /\ (In (length pop + k) pool <-> ~ beats cv obj (nth k pop d) (nth k infills d))) ->
  forall p, p < length (pop ++ infills) -> ~ In p pool -> exists q, In q pool /\ beats cv obj (nth q (pop ++ infills) d) (nth p (pop ++ infills) d).
Proof.
  intros HL HE HD p Hp Hnp. rewrite app_length in Hp. assert (HI : forall k, k < length pop -> In (nth k pop d) (pop ++ infills) /\ In (nth k infills d) (pop ++ infills)) by (intros k Hk; rewrite !in_app_iff; split; [left|right]; apply nth_In; lia).
  destruct (Nat.lt_ge_cases p (length pop)) as [H|H].
  - destruct (HD p H) as [D1 D2], (HI p H) as [I1 I2]. assert (HB : beats cv obj (nth p infills d) (nth p pop d)) by (destruct (beats_dec cv feas obj m hc _ _ _ HE I2 I1); tauto).
    exists (length pop + p). split; [apply D2; intros HB'; eapply beats_irrefl, beats_trans; eauto|]. rewrite app_nth2_plus, app_nth1 by auto. exact HB.
  - set (k := p - length pop). assert (Hk : k < length pop) by (unfold k; lia). assert (E : p = length pop + k) by (unfold k; lia). rewrite E in *. destruct (HD k Hk) as [D1 D2], (HI k Hk) as [I1 I2]. assert (HB : beats cv obj (nth k pop d) (nth k infills d)) by (destruct (beats_dec cv feas obj m hc _ _ _ HE I1 I2); tauto).
    exists k. split; [apply D1; intros HB'; eapply beats_irrefl, beats_trans; eauto|]. rewrite app_nth2_plus, app_nth1 by auto. exact HB.
Qed.
Lemma gde3_unfold {A} (d : A) cv feas obj m asort dsort nds crowding hc n (pop infills : list A) S : asort_ok asort -> dsort_ok dsort -> (forall M r, length (crowding M r) = length M) -> nds_ok m nds ->
  length infills = length pop -> evaluated cv feas obj m hc (pop ++ infills) -> gde3_advance d cv feas obj asort dsort nds crowding hc n pop infills = Some S ->
  exists pool, S = next d cv feas obj asort dsort nds crowding hc n (pop ++ infills) pool /\ NoDup pool /\ length pop <= length pool /\ (forall p, In p pool -> p < length (pop ++ infills)) /\
    forall p, p < length (pop ++ infills) -> ~ In p pool -> exists q, In q pool /\ beats cv obj (nth q (pop ++ infills) d) (nth p (pop ++ infills) d).
Proof.
  intros Ha Hd Hc Hn HL HE HS. destruct (C91_duels A d cv feas obj m asort dsort nds crowding hc n pop infills Ha Hd Hc Hn) as [_ H]. destruct (H HL HE) as (pool & S' & E1 & E2 & H1 & H2 & H3 & _ & _).
  exists pool. unfold gde3_advance in HS. rewrite E1 in HS. cbn [option_map] in HS. assert (ES : S = next d cv feas obj asort dsort nds crowding hc n (pop ++ infills) pool) by (unfold next; congruence). split; auto. split; auto. split; [lia|]. split.
  - unfold gde3_pool in E1. destruct (length infills <? length pop); [discriminate|]. assert (EP : pool = flat_map (gde3_slot d cv obj pop infills) (seq 0 (length pop))) by (symmetry; congruence). intros p Hp. rewrite EP in Hp. apply in_flat_map in Hp as (k & Hk & Hp). apply in_seq in Hk. apply slot_In in Hp. rewrite app_length. lia.
  - eapply pool_out; eauto.
Qed.

(** C91: no generation of GDE3 loses a feasible solution that no other of the generation beats, unless the population consists of such solutions only; if they fit, all of them are kept and every
    feasible solution is kept or beaten by a member; the least violation never grows; the population keeps its size *)
Theorem C91_generation : forall (A : Type) (d : A) cv feas obj m asort dsort nds crowding hc n (pop infills : list A) S,
  asort_ok asort -> dsort_ok dsort -> (forall M r, length (crowding M r) = length M) -> nds_ok m nds ->
  0 < n -> length pop = n -> length infills = n -> let all := pop ++ infills in evaluated cv feas obj m hc all ->
  gde3_advance d cv feas obj asort dsort nds crowding hc n pop infills = Some S ->
  let new := gather d all S in
  length new = n /\ incl new all /\
  (forall c, c < length all -> feas (nth c all d) = true -> unbeaten_in cv obj all (nth c all d) -> In c S \/ Forall (fun a => feas a = true /\ unbeaten_in cv obj all a) new) /\
  (fits d cv feas obj n all -> forall a, In a all -> feas a = true -> covered cv obj new a) /\
  (forall a, In a all -> exists s, In s new /\ fleb (cv s) (cv a) = true).
Proof.
  intros A d cv feas obj m asort dsort nds crowding hc n pop infills S Ha Hd Hc Hn Hn0 LP LI all HE HS new. destruct (gde3_unfold d cv feas obj m asort dsort nds crowding hc n pop infills S Ha Hd Hc Hn) as (pool & ES & H1 & H2 & H3 & H4); auto; [lia|]. change (pop ++ infills) with all in ES, H3, H4.
  destruct (next_basic d cv feas obj m asort dsort nds crowding Ha Hd Hc Hn hc n all pool HE H1 H3) as (B1 & B2 & B3). rewrite <- ES in B1, B2, B3.
  split; [unfold new; rewrite length_gather; lia|]. split; [intros x Hx; apply in_map_iff in Hx as (i & <- & Hi); apply nth_In; auto|]. split; [|split].
  - intros c Hcl Fc Uc. destruct (in_dec Nat.eq_dec c S) as [|Nc]; [now left|right]. apply Forall_forall. intros x Hx. apply in_map_iff in Hx as (i & <- & Hi). rewrite ES in Nc, Hi. apply (next_elite d cv feas obj m asort dsort nds crowding Ha Hd Hc Hn hc n all pool HE H3 H4 c i); auto.
  - intros HF a Haa Fa. unfold new. rewrite ES. apply (next_covers d cv feas obj m asort dsort nds crowding Ha Hd Hc Hn hc n all pool HE H1 H3 H4); auto. lia.
  - intros a Haa. apply (In_nth _ _ d) in Haa as (c & Hcl & <-). destruct (next_violation d cv feas obj m asort dsort nds crowding Ha Hd Hc Hn hc n all pool HE H3 H4 c Hn0 Hcl) as (s & Hs & HL). exists (nth s all d). split; auto. unfold new. rewrite ES. apply in_map_iff. eauto.
Qed.
Print Assumptions C91_generation.

(** ** histories *)
(** every generation brings n offspring; whenever the unbeaten feasible solutions of a generation (parents and offspring) fit into the population *)
Inductive gde3_fits {A} (d : A) cv feas obj asort dsort nds crowding hc n : list A -> list (list A) -> Prop :=
  | gf_nil pop : gde3_fits d cv feas obj asort dsort nds crowding hc n pop []
  | gf_cons pop infills gens J : length infills = n -> fits d cv feas obj n (pop ++ infills) -> gde3_advance d cv feas obj asort dsort nds crowding hc n pop infills = Some J ->
      gde3_fits d cv feas obj asort dsort nds crowding hc n (gather d (pop ++ infills) J) gens -> gde3_fits d cv feas obj asort dsort nds crowding hc n pop (infills :: gens).
Lemma covered_trans {A} cv obj (P Q : list A) a : (forall p, In p P -> (p = a \/ beats cv obj p a) -> covered cv obj Q p) -> covered cv obj P a -> covered cv obj Q a.
Proof.
  intros H (p & Hp & HB). destruct (H p Hp HB) as (q & Hq & HQ). exists q. split; auto. destruct HB as [->|HB]; auto. right. destruct HQ as [->|HQ]; auto. eapply constr_dominates_trans; eauto.
Qed.
(** C91: over any number of generations of GDE3: the run does not stop, the population keeps its size and consists of solutions seen, the least violation ever seen is in it; and as long as the unbeaten
    solutions fit, every feasible solution ever seen is in the final population or beaten by a member of it *)
Theorem C91_run : forall (A : Type) (d : A) cv feas obj m asort dsort nds crowding hc n gens (pop : list A),
  asort_ok asort -> dsort_ok dsort -> (forall M r, length (crowding M r) = length M) -> nds_ok m nds ->
  0 < n -> length pop = n -> Forall (fun infills => length infills = n) gens -> evaluated cv feas obj m hc (pop ++ concat gens) ->
  exists final, gde3_run d cv feas obj asort dsort nds crowding hc n pop gens = Some final /\ length final = n /\ incl final (pop ++ concat gens) /\
    (forall a, In a (pop ++ concat gens) -> exists s, In s final /\ fleb (cv s) (cv a) = true) /\
    (gde3_fits d cv feas obj asort dsort nds crowding hc n pop gens -> forall a, In a (pop ++ concat gens) -> feas a = true -> covered cv obj final a).
Proof.
  intros A d cv feas obj m asort dsort nds crowding hc n gens. induction gens as [|infills gens IH]; intros pop Ha Hd Hc Hn Hn0 LP HG HE.
  - exists pop. cbn [concat] in *. rewrite app_nil_r in *. split; auto. split; auto. split; [apply incl_refl|]. split.
    + intros a Hin. exists a. split; auto. apply fle_refl. eapply ev_ok; eauto.
    + intros _ a Hin _. exists a. auto.
  - inversion HG as [|? ? LI HG']; subst. cbn [gde3_run concat] in *. assert (HE' : evaluated cv feas obj m hc (pop ++ infills)) by (eapply ev_incl; [|exact HE]; intros x Hx; apply in_app_iff in Hx; rewrite !in_app_iff; tauto).
    destruct (C91_duels A d cv feas obj m asort dsort nds crowding hc (length pop) pop infills Ha Hd Hc Hn) as [_ HX]. destruct (HX LI HE') as (pool & J & _ & EJ & _). rewrite EJ.
    destruct (C91_generation A d cv feas obj m asort dsort nds crowding hc (length pop) pop infills J Ha Hd Hc Hn Hn0 eq_refl LI HE' EJ) as (G1 & G2 & _ & G4 & G5). set (new := gather d (pop ++ infills) J) in *.
    assert (HS : incl (new ++ concat gens) (pop ++ infills ++ concat gens)) by (intros x Hx; rewrite app_assoc; apply in_app_iff in Hx as [Hx|Hx]; apply in_app_iff; auto).
    destruct (IH new Ha Hd Hc Hn Hn0 G1 HG') as (final & F1 & F2 & F3 & F4 & F5); [eapply ev_incl; eauto|]. exists final. split; auto. split; auto. split; [intros x Hx; apply HS, F3, Hx|]. split.
    + intros a Hin. rewrite app_assoc in Hin. apply in_app_iff in Hin as [Hin|Hin]; [|apply F4, in_app_iff; auto]. destruct (G5 a Hin) as (s & Hs & HL). destruct (F4 s) as (s' & Hs' & HL'); [apply in_app_iff; auto|]. exists s'. split; auto. eapply fle_trans; eauto.
    + intros HF a Hin Fa. inversion HF as [|? ? ? J' LI' HF1 EJ' HF2]; subst. assert (J' = J) by congruence. subst J'. fold new in HF2. rewrite app_assoc in Hin. apply in_app_iff in Hin as [Hin|Hin]; [|apply F5; auto; apply in_app_iff; auto].
      eapply covered_trans; [|apply (G4 HF1 a Hin Fa)]. intros p Hp HB. apply F5; auto; [apply in_app_iff; auto|]. destruct HB as [->|HB]; auto. eapply (beater_feasible cv feas obj m hc (pop ++ infills) p a); eauto.
Qed.
Print Assumptions C91_run.
