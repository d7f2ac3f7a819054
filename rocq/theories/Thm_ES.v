(** * C79: evolution strategies (es.py, sres.py, isres.py) *)
From Coq Require Import List Arith Bool ZArith QArith Qround Lqa Lia Permutation.
From Verif Require Import Flt ListAux NpSort M_NDS M_Survival M_Optimum M_RandSort M_Repro M_Bounds M_ES S_Pareto S_NDS S_Optimum P_Dominator P_Optimum Thm_Optimum P_Bounds Thm_GA Thm_RandSort Thm_Repro.
Import ListNotations.
Local Open Scope nat_scope.

(** ** sizes *)
(** every accepted configuration creates at least twice as many offspring as survive, and the given sizes are the ones used *)
Theorem C79_sizes rule n_off pop_size mu lam : es_sizes rule n_off pop_size = Some (mu, lam) ->
  2 * mu <= lam /\ (forall p, pop_size = Some p -> mu = p) /\ (forall o, n_off = Some o -> lam = o).
Proof.
  intros E. unfold es_sizes in E. destruct n_off as [o|], pop_size as [p|]; cbn zeta in E; match type of E with (if ?b then _ else _) = _ => destruct b eqn:B; [|discriminate] end; apply Nat.leb_le in B; injection E as <- <-; repeat split; auto; intros ? H; congruence.
Qed.
(** the default rule 1/7 keeps a seventh of the offspring, rounded up, and accepts every number of offspring but one (or none that survive) *)
Theorem C79_default_rule : (forall o, 2 <= o -> exists mu, es_sizes (1 # 7)%Q (Some o) None = Some (mu, o) /\ 7 * (mu - 1) < o <= 7 * mu) /\
  (forall p, es_sizes (1 # 7)%Q None (Some p) = Some (p, 7 * p)) /\ es_sizes (1 # 7)%Q None None = Some (29, 200) /\ es_sizes (1 # 7)%Q (Some 1) None = None.
Proof.
  split; [|split; [|split; reflexivity]].
  - intros o Ho. set (mu := Z.to_nat (Qceiling (inject_Z (Z.of_nat o) * (1 # 7)))). exists mu.
    assert (B : 7 * (mu - 1) < o <= 7 * mu).
    { assert (Z1 := Qle_ceiling (inject_Z (Z.of_nat o) * (1 # 7))). assert (Z2 := Qceiling_lt (inject_Z (Z.of_nat o) * (1 # 7))). unfold mu.
      set (c := Qceiling _) in *. assert (B1 : (Z.of_nat o <= 7 * c)%Z) by (unfold Qle in Z1; cbn in Z1; lia). assert (B2 : (7 * (c - 1) < Z.of_nat o)%Z) by (unfold Qlt in Z2; cbn in Z2; lia). lia. }
    split; [|exact B]. unfold es_sizes. fold mu. destruct (Nat.leb_spec (2 * mu) o); [reflexivity|lia].
  - intros p. unfold es_sizes. replace (Z.to_nat (Qfloor (inject_Z (Z.of_nat p) / (1 # 7)))) with (7 * p).
    + destruct (Nat.leb_spec (2 * p) (7 * p)); [reflexivity|lia].
    + assert (E : (inject_Z (Z.of_nat p) / (1 # 7) == inject_Z (7 * Z.of_nat p))%Q) by (rewrite inject_Z_mult; change (inject_Z 7) with 7%Q; field). rewrite (Qfloor_comp _ _ E), Qfloor_Z. lia.
Qed.
Print Assumptions C79_default_rule.

(** ** variation *)
Section Box.
  Local Open Scope Q_scope.
  (** the repair of one value: an acceptable value is kept; otherwise the result is acceptable, namely a renewed attempt or the parent's value *)
  Theorem C79_repair x sigma xl xu zs : forall xp, xl <= x <= xu ->
    (xl <= xp <= xu -> es_repair x sigma xl xu zs xp = xp) /\ xl <= es_repair x sigma xl xu zs xp <= xu /\
    (es_repair x sigma xl xu zs xp = xp \/ es_repair x sigma xl xu zs xp = x \/ exists z, In z zs /\ es_repair x sigma xl xu zs xp = x + sigma * z).
  Proof.
    induction zs as [|z zs IH]; intros xp Hx; cbn [es_repair]; destruct (Qltb xp xl || Qltb xu xp) eqn:B.
    - split; [|split; [auto|auto]]. intros [H1 H2]. apply orb_true_iff in B. destruct B as [B|B]; apply Qltb_iff in B; lra.
    - apply orb_false_iff in B. destruct B as [B1 B2]. apply Qltb_false in B1, B2. auto.
    - destruct (IH (x + sigma * z) Hx) as (I1 & I2 & I3). split; [|split; [auto|]].
      + intros [H1 H2]. apply orb_true_iff in B. destruct B as [B|B]; apply Qltb_iff in B; lra.
      + right. destruct I3 as [I3|[I3|(z' & Hz & I3)]]; [right; exists z|auto|right; exists z']; split; cbn; auto.
    - apply orb_false_iff in B. destruct B as [B1 B2]. apply Qltb_false in B1, B2. auto.
  Qed.
  Definition in_box (xl xu : nat -> Q) (smax : nat -> Q) (j : nat) (c : Q * Q) : Prop := xl j <= fst c <= xu j /\ 0 < snd c <= smax j.
  Lemma qmin2_spec a b : qmin2 a b <= a /\ (0 < a -> 0 < b -> 0 < qmin2 a b).
  Proof. unfold qmin2. destruct (Qle_bool a b) eqn:E; [split; [lra|auto]|]. assert (~ a <= b) by (intros H; apply Qle_bool_iff in H; congruence). split; [lra|auto]. Qed.
  (** every offspring is within the bounds and has a positive step size not above the maximum, if this is so for the population *)
  Theorem C79_offspring mu gamma X sigma smax xl xu k e z zs i j : (1 <= mu)%nat -> 0 < e i j ->
    (forall p, (p < mu)%nat -> in_box xl xu smax j (X p j, sigma p j)) ->
    in_box xl xu smax j (es_child mu gamma true X sigma smax xl xu k e z zs i j).
  Proof.
    intros Hmu He HB. set (p := (i mod mu)%nat). assert (Hp : (p < mu)%nat) by (apply Nat.mod_upper_bound; lia). destruct (HB p Hp) as [B1 B2]. cbn [fst snd] in *.
    assert (Hk : (k i j mod mu < mu)%nat) by (apply Nat.mod_upper_bound; lia). destruct (HB _ Hk) as [K1 K2]; cbn [fst snd] in *.
    unfold es_child. fold p. set (s1 := qmin2 (smax j) ((sigma p j + sigma (k i j mod mu)%nat j) / 2 * e i j)).
    assert (S1 : 0 < s1 <= smax j).
    { destruct (qmin2_spec (smax j) ((sigma p j + sigma (k i j mod mu)%nat j) / 2 * e i j)) as [M1 M2]. split; [apply M2; [lra|]|exact M1].
      rewrite <- (Qmult_0_l (e i j)). apply Qmult_lt_compat_r; auto. apply Qlt_shift_div_l; lra. }
    assert (N : in_box xl xu smax j (es_repair (X p j) s1 (xl j) (xu j) (zs i j) (X p j + s1 * z i j), s1)) by (split; [apply (C79_repair (X p j) s1 (xl j) (xu j) (zs i j) (X p j + s1 * z i j) B1)|exact S1]).
    destruct gamma as [g|]; [|exact N]. destruct (Nat.ltb_spec i (mu - 1)); [|exact N]. cbn [in_box fst snd].
    assert (Hi : (i < mu)%nat) by lia. split; cbn [fst snd]; [apply C79_repair; auto|]. apply (HB i Hi).
  Qed.
  Theorem C79_isres_offspring mu mu' gamma alpha X sigma smax xl xu e z zs i j : (1 <= mu')%nat -> 0 < e i j -> 0 <= alpha <= 1 ->
    (forall p, (p < mu')%nat -> in_box xl xu smax j (X p j, sigma p j)) ->
    in_box xl xu smax j (isres_child mu mu' gamma alpha X sigma smax xl xu e z zs i j).
  Proof.
    intros Hmu He Ha HB. set (p := (i mod mu')%nat). assert (Hp : (p < mu')%nat) by (apply Nat.mod_upper_bound; lia). destruct (HB p Hp) as [B1 B2]. cbn [fst snd] in *.
    unfold isres_child. fold p. set (s1 := if (i <? mu - 1)%nat then sigma p j else qmin2 (smax j) (sigma p j * e i j)).
    assert (S1 : 0 < s1 <= smax j).
    { unfold s1. destruct (i <? mu - 1)%nat; [auto|]. destruct (qmin2_spec (smax j) (sigma p j * e i j)) as [M1 M2]. split; [apply M2; [lra|]|exact M1].
      rewrite <- (Qmult_0_l (e i j)). apply Qmult_lt_compat_r; lra. }
    split; cbn [fst snd]; [now apply C79_repair|]. destruct (i <? mu)%nat; [exact S1|].
    assert (P1 : 0 <= alpha * s1) by (apply Qmult_le_0_compat; lra). assert (P2 : 0 <= (1 - alpha) * sigma p j) by (apply Qmult_le_0_compat; lra).
    assert (P3 : 0 <= alpha * (smax j - s1)) by (apply Qmult_le_0_compat; lra). assert (P4 : 0 <= (1 - alpha) * (smax j - sigma p j)) by (apply Qmult_le_0_compat; lra).
    split; [|lra]. destruct (Qlt_le_dec 0 alpha) as [A|A].
    - assert (P5 : 0 < alpha * s1) by (rewrite <- (Qmult_0_l s1); apply Qmult_lt_compat_r; lra). lra.
    - assert (A0 : alpha == 0) by lra. rewrite A0. lra.
  Qed.
  (** a weight above one makes step sizes negative *)
  Theorem C79_isres_alpha_refuted : ~ (forall mu mu' gamma alpha X sigma smax xl xu e z zs i j, (1 <= mu')%nat -> 0 < e i j -> 0 <= alpha ->
    (forall p, (p < mu')%nat -> in_box xl xu smax j (X p j, sigma p j)) -> 0 < snd (isres_child mu mu' gamma alpha X sigma smax xl xu e z zs i j)).
  Proof.
    intros H. specialize (H 1%nat 1%nat 0 2 (fun _ _ => 0) (fun _ _ => 1) (fun _ => 1) (fun _ => 0) (fun _ => 1) (fun _ _ => 1 # 4) (fun _ _ => 0) (fun _ _ => []) 1%nat 0%nat).
    assert (Hf : 0 < snd (isres_child 1 1 0 2 (fun _ _ => 0) (fun _ _ => 1) (fun _ => 1) (fun _ => 0) (fun _ => 1) (fun _ _ => 1 # 4) (fun _ _ => 0) (fun _ _ => []) 1 0)).
    { apply H; try lia; try lra. intros p _. repeat split; cbn; lra. }
    vm_compute in Hf. discriminate.
  Qed.
  (** the initial step sizes are the maximum, (xu - xl) / sqrt(n_var), positive where the bounds differ; problems without bounds raise *)
  Theorem C79_sigma_max rt xl xu : 0 < rt -> length xl = length xu ->
    exists s, es_sigma_max rt (Some xl) (Some xu) = Some s /\ length s = length xl /\ (forall j, (j < length xl)%nat -> nth j s 0 == (nth j xu 0 - nth j xl 0) * rt /\ (nth j xl 0 < nth j xu 0 -> 0 < nth j s 0)).
  Proof.
    intros Hr HL. eexists. split; [reflexivity|]. split; [now rewrite map_length, length_map2, HL, Nat.min_id|]. intros j Hj.
    assert (E : nth j (map (fun r => r * rt) (map2 Qminus xu xl)) 0 == (nth j xu 0 - nth j xl 0) * rt).
    { assert (E1 : nth j (map (fun r => r * rt) (map2 Qminus xu xl)) 0 = (fun r => r * rt) (nth j (map2 Qminus xu xl) 0)).
      { rewrite <- (map_nth (fun r => r * rt)). apply nth_indep. rewrite map_length, length_map2; lia. }
      rewrite E1. rewrite (nth_map2 Qminus xu xl j 0 0 0); [reflexivity|lia|lia]. }
    split; [exact E|]. intros Hlt. rewrite E. apply Qle_lt_trans with (0 * rt); [lra|]. apply Qmult_lt_compat_r; lra.
  Qed.
  Theorem C79_unbounded_refuted rt x : es_sigma_max rt None x = None /\ es_sigma_max rt x None = None.
  Proof. split; [reflexivity|]. now destruct x. Qed.
End Box.
Print Assumptions C79_isres_offspring.

(** ** selection *)
Section Run.
  Context {A : Type} (d : A) (obj : A -> list flt) (cv : A -> flt) (feas : A -> bool) (pr : list (list flt) -> list nat).
  Notation ok := (ind_ok obj cv 1).
  Notation better := (better_than obj cv feas).
  Lemma better_weak2 x b o : ok x -> ok b -> ok o -> better x o -> better x b \/ better b o.
  Proof.
    intros Ox Ob Oo H. pose proof (ok_f obj cv x Ox) as F1. pose proof (ok_f obj cv o Oo) as F2. pose proof (ok_f obj cv b Ob) as Fb.
    assert (DS : forall a c, ok a -> ok c -> (dominates (obj a) (obj c) <-> fltb (nth 0 (obj a) f_nan) (nth 0 (obj c) f_nan) = true)) by (intros a c [[? ?] _] [[? ?] _]; apply dominates_single; auto).
    unfold better_than in *. destruct H as [[K1 K2]|[(K1 & K2 & K3)|(K1 & K2 & K3)]]; destruct (feas b) eqn:Eb; rewrite ?K1, ?K2; auto.
    - apply DS in K3; auto. rewrite !DS by auto. destruct (fltb (nth 0 (obj x) f_nan) (nth 0 (obj b) f_nan)) eqn:E; [left; right; left; auto|]. right. right. left. repeat split; auto. eapply fle_lt_trans; [|exact K3]. now apply nlt_le.
    - destruct (fltb (cv x) (cv b)) eqn:E; [left; right; right; auto|]. right. right. right. repeat split; auto. eapply fle_lt_trans; [|exact K3]. apply nlt_le; [apply Ox|apply Ob|exact E].
  Qed.
  Lemma filter_best l : (forall z, In z l -> ok z) -> l <> [] -> exists x, filter_optimum d obj cv feas pr 1 (Some l) true = Some [x] /\ best obj cv feas l x.
  Proof.
    intros Hl Hne. destruct (existsb feas l) eqn:EF.
    - assert (Hex : exists a, In a l /\ feas a = true) by (now apply existsb_exists).
      destruct (C40_single A d obj cv feas pr l true) as (y & Ey & Hy & Hf & Hm); auto; [now apply Forall_forall|]. exists y. split; [exact Ey|].
      split; auto. intros z Hz [[K1 K2]|[(K1 & K2 & K3)|(K1 & K2 & K3)]]; try congruence.
      specialize (Hm z Hz K1). apply dominates_single in K3; try (apply Hl; auto). apply fle_not_lt in Hm. congruence.
    - rewrite not_existsb in EF. destruct (C40_infeasible A d obj cv feas pr 1 l Hne) as [(y & Ey & Hy & Hm) _]; auto; [intros a Ha; apply Hl; auto|]. exists y. split; [exact Ey|].
      split; auto. intros z Hz [[K1 K2]|[(K1 & K2 & K3)|(K1 & K2 & K3)]]; try (rewrite EF in K1 by auto; discriminate).
      specialize (Hm z Hz). apply fle_not_lt in Hm. congruence.
  Qed.

  (** any survival that returns [min n (length pop)] members *)
  Definition picks (surv : list A -> nat -> list nat) : Prop := forall pop n, length (gather d pop (surv pop n)) = Nat.min n (length pop) /\ incl (gather d pop (surv pop n)) pop.
  Lemma run_picks surv pop_size gens : picks surv -> forall st, length (fst st) = pop_size ->
    let fin := es_run d obj cv feas pr surv pop_size gens st in length (fst fin) = pop_size /\ incl (fst fin) (fst st ++ concat gens).
  Proof.
    intros HS. induction gens as [|g gens IH]; intros [pop opt] HL; cbn [es_run fst snd concat] in *; [split; [auto|intros x Hx; now rewrite app_nil_r]|].
    set (m := if length g <? pop_size then g ++ pop else g). destruct (HS m pop_size) as [S1 S2].
    assert (Lm : pop_size <= length m) by (unfold m; destruct (Nat.ltb_spec (length g) pop_size); [rewrite app_length; lia|lia]).
    destruct (IH (es_advance d surv pop_size pop g, es_set_opt d obj cv feas pr opt (es_advance d surv pop_size pop g))) as [I1 I2]; [cbn [fst]; unfold es_advance; fold m; rewrite S1; lia|]. split; [exact I1|].
    intros x Hx. apply I2 in Hx. cbn [fst] in Hx. apply in_app_iff in Hx. destruct Hx as [Hx|Hx]; [|rewrite !in_app_iff; auto].
    apply S2 in Hx. unfold m in Hx. destruct (length g <? pop_size); rewrite ?in_app_iff in *; tauto.
  Qed.
End Run.

(** the population has [pop_size] members after every generation, all of them evaluated solutions, for both survivals of the library *)
Theorem C79_population : forall (A : Type) (d : A) obj cv feas pr surv pop_size gens init, picks d surv -> length init = pop_size ->
  let fin := es_run d obj cv feas pr surv pop_size gens (es_start d obj cv feas pr surv init) in length (fst fin) = pop_size /\ incl (fst fin) (init ++ concat gens).
Proof.
  intros A d obj cv feas pr surv ps gens init HS HL. destruct (HS init (length init)) as [S1 S2]. unfold es_start. cbv zeta.
  destruct (run_picks d obj cv feas pr surv ps gens HS (gather d init (surv init (length init)), es_set_opt d obj cv feas pr None (gather d init (surv init (length init))))) as [R1 R2]; [cbn [fst]; lia|].
  split; [exact R1|]. intros x Hx. apply R2 in Hx. cbn [fst] in Hx. rewrite in_app_iff in *. destruct Hx; auto.
Qed.
Lemma firstn_picks {A} (d : A) (pop : list A) J n : Permutation.Permutation J (seq 0 (length pop)) -> length (gather d pop (firstn n J)) = Nat.min n (length pop) /\ incl (gather d pop (firstn n J)) pop.
Proof.
  intros HP. assert (HJ : length J = length pop) by (now rewrite (Permutation_length HP), seq_length). split; [rewrite length_gather, firstn_length; lia|].
  intros x Hx. apply in_map_iff in Hx as (i & <- & Hi). apply nth_In. apply (perm_seq_In _ _ i HP). rewrite <- (firstn_skipn n J). apply in_or_app; auto.
Qed.
Theorem C79_picks : forall (A : Type) (d : A) f phi asort hc PR u, (forall l, Permutation.Permutation (asort l) (seq 0 (length l))) -> picks d (sres_survival f phi asort hc PR u).
Proof.
  intros A d f phi asort hc PR u HA pop n. unfold sres_survival. apply firstn_picks. destruct hc.
  - replace (length pop) with (length (map f pop)) by apply map_length. apply C33_permutation. intros J [= <-]. reflexivity.
  - rewrite <- (map_length f pop). apply HA.
Qed.
Theorem C79_picks_fitness : forall (A : Type) (d : A) obj cv feas asort lex hc, (forall l, Permutation.Permutation (lex l) (seq 0 (length l))) -> picks d (ga_survival d obj cv feas asort lex hc).
Proof.
  intros A d obj cv feas asort lex hc HA pop n. unfold ga_survival, survival_do. destruct (Nat.eqb_spec (length pop) 0) as [E|E].
  - destruct pop; [|discriminate]. cbn. split; [lia|intros x []].
  - cbn [andb]. unfold fitness_survival. destruct (firstn_picks d pop (lex (map (fun a => (cv a, nth 0 (obj a) f_nan)) pop)) (Nat.min n (length pop))) as [H1 H2]; [rewrite <- (map_length (fun a => (cv a, nth 0 (obj a) f_nan)) pop); apply HA|].
    split; [rewrite H1; lia|exact H2].
Qed.

(** C79, ES: after every generation the reported optimum is one evaluated solution that no solution evaluated so far beats, although the survivors are taken from the offspring only *)
Theorem C79_reported_optimum : forall (A : Type) (d : A) obj cv feas pr asort lex hc pop_size gens init,
  lex_ok lex -> 1 <= pop_size -> init <> [] -> Forall (fun g => g <> []) gens ->
  (forall x, In x (init ++ concat gens) -> ind_ok obj cv 1 x /\ cv_consistent cv feas x) ->
  exists o, snd (es_run d obj cv feas pr (ga_survival d obj cv feas asort lex hc) pop_size gens (es_start d obj cv feas pr (ga_survival d obj cv feas asort lex hc) init)) = Some [o] /\
    best obj cv feas (init ++ concat gens) o.
Proof.
  intros A d obj cv feas pr asort lex hc ps gens init HL HP Hne HG Hall. set (surv := ga_survival d obj cv feas asort lex hc).
  assert (Step : forall seen opt merged n, merged <> [] -> 1 <= n -> (forall x, In x (seen ++ merged) -> ind_ok obj cv 1 x /\ cv_consistent cv feas x) ->
    (match opt with None => seen = [] | Some o => exists x, o = [x] /\ best obj cv feas seen x end) ->
    let new := gather d merged (surv merged n) in incl new merged /\ new <> [] /\ exists x, es_set_opt d obj cv feas pr opt new = Some [x] /\ best obj cv feas (seen ++ merged) x).
  { intros seen opt merged n Hm Hn Hok Hopt new.
    destruct (ga_step d obj cv feas asort lex hc n merged HL) as (S1 & S2 & b & Hb & Hbx); auto; [apply Forall_forall; intros x Hx; apply Hok, in_or_app; auto|].
    change (gather d merged (ga_survival d obj cv feas asort lex hc merged n)) with new in *. split; [exact S2|]. split; [intros E; rewrite E in Hb; destruct Hb|].
    unfold es_set_opt. set (l := match opt with None => new | Some o => o ++ new end).
    assert (Hin : incl l (seen ++ merged)).
    { unfold l. destruct opt as [o|]; [destruct Hopt as (x & -> & Hx & _)|]; intros y Hy; rewrite ?in_app_iff in *; [destruct Hy as [[<-|[]]|Hy]; auto|auto]. }
    assert (Hbl : In b l) by (unfold l; destruct opt; [apply in_or_app|]; auto).
    destruct (filter_best d obj cv feas pr l) as (x & Ex & Hx & Hbest); [intros z Hz; apply Hok, Hin, Hz|intros E; rewrite E in Hbl; destruct Hbl|].
    exists x. split; [exact Ex|]. split; [auto|]. intros y Hy HB. apply Hin in Hx as Hx'. apply Hin in Hbl as Hbl'. apply in_app_iff in Hy. destruct Hy as [Hy|Hy].
    - destruct opt as [o|]; [|subst seen; destruct Hy]. destruct Hopt as (x0 & -> & Hx0 & Hb0). assert (Hx0l : In x0 l) by (unfold l; cbn; auto).
      destruct (better_weak2 obj cv feas y x0 x) as [K|K]; auto; try (apply Hok; auto; apply in_or_app; auto); [exact (Hb0 y Hy K)|exact (Hbest x0 Hx0l K)].
    - destruct (better_weak2 obj cv feas y b x) as [K|K]; auto; try (apply Hok; auto; apply in_or_app; auto); [|exact (Hbest b Hbl K)].
      revert K. apply leq_not_better; auto; apply Hok; auto; apply in_or_app; auto. }
  assert (Run : forall gens seen pop opt, Forall (fun g => g <> []) gens -> (forall x, In x (seen ++ concat gens) -> ind_ok obj cv 1 x /\ cv_consistent cv feas x) -> incl pop seen ->
    (exists x, opt = Some [x] /\ best obj cv feas seen x) -> exists o, snd (es_run d obj cv feas pr surv ps gens (pop, opt)) = Some [o] /\ best obj cv feas (seen ++ concat gens) o).
  { clear Hall HG gens Hne init. induction gens as [|g gens IH]; intros seen pop opt HG Hok Hinc (x & -> & Hx); cbn [es_run fst snd concat]; [exists x; now rewrite app_nil_r|].
    inversion HG as [|? ? Hg HG']; subst. set (m := if length g <? ps then g ++ pop else g).
    assert (Hm : incl m (seen ++ g)) by (unfold m; destruct (length g <? ps); intros y Hy; rewrite ?in_app_iff in *; [destruct Hy; auto|auto]).
    assert (Hm' : incl g m) by (unfold m; destruct (length g <? ps); intros y Hy; rewrite ?in_app_iff; auto).
    destruct (Step seen (Some [x]) m ps) as (N1 & N2 & x' & N3 & N4); auto.
    { intros E. destruct g as [|a g]; [congruence|]. specialize (Hm' a (or_introl eq_refl)). rewrite E in Hm'. destruct Hm'. }
    { intros y Hy. apply Hok. cbn [concat]. rewrite in_app_iff in Hy. destruct Hy as [Hy|Hy]; [apply in_or_app; auto|]. apply Hm in Hy. rewrite !in_app_iff in *. tauto. }
    { eauto. }
    rewrite app_assoc. apply IH; auto.
    - intros y Hy. apply Hok. cbn [concat]. now rewrite app_assoc.
    - intros y Hy. apply N1 in Hy. now apply Hm.
    - exists x'. split; [exact N3|]. destruct N4 as [M1 M2]. split.
      + apply in_app_iff in M1. destruct M1 as [M1|M1]; [apply in_or_app; auto|now apply Hm].
      + intros y Hy. apply M2. apply in_app_iff in Hy. destruct Hy as [Hy|Hy]; apply in_or_app; auto. }
  destruct (Step [] None init (length init)) as (N1 & N2 & x' & N3 & N4); auto; [destruct init; [congruence|cbn; lia]|intros x Hx; apply Hall, in_or_app; auto|].
  unfold es_start. cbv zeta. apply Run; auto. exists x'. auto.
Qed.
Print Assumptions C79_reported_optimum.

(** ** what does not hold.  Solutions: (objective, constraint violation) *)
Definition e_obj (a : Z * Z) : list flt := [fz (fst a)].
Definition e_f (a : Z * Z) : flt := fz (fst a).
Definition e_cv (a : Z * Z) : flt := fz (snd a).
Definition e_feas (a : Z * Z) : bool := (snd a <=? 0)%Z.
(** comma selection: the best solution leaves the population (it stays the reported optimum) *)
Theorem C79_comma_refuted : let fin := es_run (9, 9)%Z e_obj e_cv e_feas (fun _ => []) (ga_survival (9, 9)%Z e_obj e_cv e_feas np_argsort np_lex false) 1 [[(5, 0); (4, 0)]%Z] (es_start (9, 9)%Z e_obj e_cv e_feas (fun _ => []) (ga_survival (9, 9)%Z e_obj e_cv e_feas np_argsort np_lex false) [(1, 0)%Z]) in
  fst fin = [(4, 0)%Z] /\ snd fin = Some [(1, 0)%Z].
Proof. split; reflexivity. Qed.
(** stochastic ranking: with a random number below PF = 0.45 a feasible offspring is discarded for an infeasible one, and no optimum reported later is feasible *)
Theorem C79_sres_refuted : let surv := sres_survival e_f e_cv np_argsort true (9 # 20) (fun _ _ => 1 # 4)%Q in
  let fin := es_run (9, 9)%Z e_obj e_cv e_feas (fun _ => []) surv 1 [[(5, 0); (1, 1)]%Z] (es_start (9, 9)%Z e_obj e_cv e_feas (fun _ => []) surv [(7, 2)%Z]) in
  fin = ([(1, 1)%Z], Some [(1, 1)%Z]) /\ better_than e_obj e_cv e_feas (5, 0)%Z (1, 1)%Z.
Proof. split; [reflexivity|left; split; reflexivity]. Qed.
(** the stochastic ranking draws from a generator of its own, so a seeded run on a constrained problem cannot be repeated; without constraints nothing is drawn *)
Theorem C79_sres_seed_refuted : ~ (forall f phi asort PR n, reproducible (p_sres_survival f phi asort true PR n)).
Proof. intros H. specialize (H [fz 5; fz 1] [fz 0; fz 1] (fun _ => []) (9 # 20)%Q 1). revert H. refute. Qed.
Theorem C79_sres_seed_unconstrained f phi asort PR n : reproducible (p_sres_survival f phi asort false PR n).
Proof. intros N o1 o2 g n1 n2. reflexivity. Qed.

(** the hypotheses are met: two generations, an infeasible start, the second generation only partly evaluated *)
Example C79_case : let init := [(3, 2); (4, 1)]%Z in let gens := [[(5, 0); (6, 1); (7, 0); (8, 0)]; [(6, 0)]]%Z in
  (forall x, In x (init ++ concat gens) -> ind_ok e_obj e_cv 1 x /\ cv_consistent e_cv e_feas x) /\
  es_run (9, 9)%Z e_obj e_cv e_feas (fun _ => []) (ga_survival (9, 9)%Z e_obj e_cv e_feas np_argsort np_lex true) 2 gens (es_start (9, 9)%Z e_obj e_cv e_feas (fun _ => []) (ga_survival (9, 9)%Z e_obj e_cv e_feas np_argsort np_lex true) init) = ([(5, 0); (6, 0)]%Z, Some [(5, 0)%Z]).
Proof.
  cbv zeta. split; [|reflexivity]. intros x Hx. cbn in Hx. decompose [or] Hx; subst; try contradiction; repeat split; try reflexivity; repeat constructor.
Qed.
Example C79_box_case : let X := fun i j : nat => if (i =? 0)%nat then 0%Q else 1%Q in (forall p, p < 2 -> in_box (fun _ => 0%Q) (fun _ => 1%Q) (fun _ => (1 # 2)%Q) 0 (X p 0, (1 # 4)%Q)) /\
  (fst (es_child 2%nat (Some (17 # 20)%Q) true X (fun _ _ => 1 # 4)%Q (fun _ => 1 # 2)%Q (fun _ => 0%Q) (fun _ => 1%Q) (fun _ _ => 1%nat) (fun _ _ => 3%Q) (fun _ _ => 1%Q) (fun _ _ => [(-5 # 1)%Q; 1%Q]) 2%nat 0%nat) == 1 # 2)%Q /\
  (fst (es_child 2%nat (Some (17 # 20)%Q) true X (fun _ _ => 1 # 4)%Q (fun _ => 1 # 2)%Q (fun _ => 0%Q) (fun _ => 1%Q) (fun _ _ => 1%nat) (fun _ _ => 3%Q) (fun _ _ => 1%Q) (fun _ _ => [(-5 # 1)%Q; 1%Q]) 0%nat 0%nat) == 1 # 4)%Q.
Proof. cbv zeta. split; [|split; vm_compute; reflexivity]. intros p Hp. unfold in_box. destruct p as [|[|p]]; cbn; repeat split; try lra; lia. Qed.
