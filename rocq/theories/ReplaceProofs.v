(** * Replacing estimates from outside: proofs *)
From Verif Require Import Prelude Keys KMap Geometry Factors Pcm Solver PcmSpec PcmProofs PcmInv HistSpec SolverProofs HistProofs
  ParamProofs PlainProofs CallsSpec CallsProofs Base BaseSpec BaseProofs ReplaceSpec.
Set Implicit Arguments.
Local Open Scope nat_scope.

Section Replace.
Variable O : tops.
Variable C : config.
Variable W : soracles O.
Notation solver := (solver O).
Notation op := (op O).
Notation bop := (bop O).
Notation values := (values O).
Notation sp := (c_special C).

Lemma kmem_kfind k (m : values) : kmem k m = match kfind k m with Some _ => true | None => false end.
Proof. reflexivity. Qed.

Lemma same_type_iff (a b : value O) : same_type a b = true <-> same_kind a b.
Proof. destruct a, b; cbn; split; auto; discriminate. Qed.

Definition knownp (st : values * values) (k : key) : option (value O) :=
  match kfind k (fst st) with Some v => Some v | None => kfind k (snd st) end.
Definition fitsp (st : values * values) (x : key * value O) : Prop :=
  match knownp st (fst x) with Some v => same_kind v (snd x) | None => True end.
Definition put (vs : values) (st st' : values * values) : Prop :=
  (forall k, kfind k (fst st') = match kfind k (fst st), kfind k vs with Some _, Some v => Some v | o, _ => o end) /\
  (forall k, kfind k (snd st') =
     match kfind k (snd st), kfind k vs with Some _, Some v => if kmem k (fst st) then kfind k (snd st) else Some v | o, _ => o end).

Lemma kfind_absent (vs : values) k : ~ In k (map fst vs) -> kfind k vs = None.
Proof.
  induction vs as [|[k' v] vs IH]; cbn [kfind map fst In]; auto. intro H. destruct (N.eqb_spec k k') as [->|]; [exfalso; auto|]. apply IH. auto.
Qed.

Lemma put_one k v vs (st st1 st' : values * values) : ~ In k (map fst vs) ->
  put [(k, v)] st st1 -> put vs st1 st' -> put ((k, v) :: vs) st st'.
Proof.
  intros N0 [A1 A2] [B1 B2]. pose proof (kfind_absent _ _ N0) as E.
  assert (M : forall q, kmem q (fst st1) = kmem q (fst st)).
  { intro q. rewrite !kmem_kfind, A1. destruct (kfind q (fst st)); auto. cbn [kfind]. destruct (q =? k)%N; auto. }
  split; intro q.
  - rewrite B1, A1. cbn [kfind]. destruct (N.eqb_spec q k) as [->|].
    + rewrite E. destruct (kfind k (fst st)); auto.
    + destruct (kfind q (fst st)); auto.
  - rewrite B2, A2, M. cbn [kfind]. destruct (N.eqb_spec q k) as [->|].
    + rewrite E. destruct (kfind k (snd st)); auto. destruct (kmem k (fst st)); auto.
    + destruct (kfind q (snd st)); auto.
Qed.

Lemma fits_later k v (st st1 : values * values) (x : key * value O) : put [(k, v)] st st1 -> fst x <> k -> fitsp st1 x <-> fitsp st x.
Proof.
  intros [A1 A2] N0. specialize (A1 (fst x)). specialize (A2 (fst x)). cbn [kfind] in A1, A2.
  replace (fst x =? k)%N with false in A1, A2 by (symmetry; apply N.eqb_neq; exact N0).
  assert (B1 : kfind (fst x) (fst st1) = kfind (fst x) (fst st)) by (rewrite A1; destruct (kfind (fst x) (fst st)); auto).
  assert (B2 : kfind (fst x) (snd st1) = kfind (fst x) (snd st)) by (rewrite A2; destruct (kfind (fst x) (snd st)); auto).
  unfold fitsp, knownp. rewrite B1, B2. tauto.
Qed.

Lemma update_exact (vs : values) : forall st : values * values, NoDup (map fst vs) ->
  exists done rest st', vs = done ++ rest /\ (forall x, In x done -> fitsp st x) /\ put done st st' /\
    ((rest = [] /\ update_values vs st = Ok st' tt) \/
     (exists k v rest', rest = (k, v) :: rest' /\ ~ fitsp st (k, v) /\ update_values vs st = Throw st' (IncorrectType k))).
Proof.
  induction vs as [|[k v] vs IH]; intros st ND.
  - exists [], [], st. split; auto. split; [intros x []|]. split; [|left; auto].
    split; intro k; [destruct (kfind k (fst st)); auto|destruct (kfind k (snd st)); auto].
  - inversion ND as [|? ? N1 N2]; subst. cbn [update_values].
    assert (STOP : forall v0, knownp st k = Some v0 -> same_type v0 v = false ->
      exists done rest st', (k, v) :: vs = done ++ rest /\ (forall x, In x done -> fitsp st x) /\ put done st st' /\
        ((rest = [] /\ @Throw _ unit st (IncorrectType k) = Ok st' tt) \/
         (exists k0 v1 rest', rest = (k0, v1) :: rest' /\ ~ fitsp st (k0, v1) /\ @Throw _ unit st (IncorrectType k) = Throw st' (IncorrectType k0)))).
    { intros v0 K S0. exists [], ((k, v) :: vs), st. split; auto. split; [intros x []|]. split.
      - split; intro q; [destruct (kfind q (fst st)); auto|destruct (kfind q (snd st)); auto].
      - right. exists k, v, vs. split; auto. split; auto. unfold fitsp. cbn [fst snd]. rewrite K, <- same_type_iff, S0. discriminate. }
    assert (GO : forall st1, put [(k, v)] st st1 -> fitsp st (k, v) ->
      exists done rest st', (k, v) :: vs = done ++ rest /\ (forall x, In x done -> fitsp st x) /\ put done st st' /\
        ((rest = [] /\ update_values vs st1 = Ok st' tt) \/
         (exists k0 v1 rest', rest = (k0, v1) :: rest' /\ ~ fitsp st (k0, v1) /\ update_values vs st1 = Throw st' (IncorrectType k0)))).
    { intros st1 P F. destruct (IH st1 N2) as (done & rest & st' & E & D & Q & R). exists ((k, v) :: done), rest, st'.
      assert (NK : forall x, In x vs -> fst x <> k) by (intros x Hx E'; apply N1; rewrite <- E'; apply in_map; auto).
      split; [rewrite E; reflexivity|]. split.
      - intros x [<-|Hx]; auto. apply (fits_later x P); auto. apply NK. rewrite E. apply in_or_app. auto.
      - split.
        + eapply put_one; eauto. rewrite E, map_app in N1. intro X. apply N1, in_or_app. auto.
        + destruct R as [R|(k0 & v1 & rest' & -> & R1 & R2)]; [left; auto|]. right. exists k0, v1, rest'. split; auto. split; auto.
          intro X. apply R1. apply (fits_later (k0, v1) P); auto. apply NK. rewrite E. apply in_elt. }
    destruct (kfind k (fst st)) as [v0|] eqn:E1.
    + assert (K : knownp st k = Some v0) by (unfold knownp; rewrite E1; auto).
      destruct (same_type v0 v) eqn:ES; [|apply (STOP v0); auto].
      apply GO; [|unfold fitsp; cbn [fst snd]; rewrite K; apply same_type_iff; auto].
      split; intro q; cbn [fst snd kfind]; [rewrite kfind_kset|]; destruct (N.eqb_spec q k) as [->|].
      * rewrite E1. auto.
      * destruct (kfind q (fst st)); auto.
      * rewrite kmem_kfind, E1. destruct (kfind k (snd st)); auto.
      * destruct (kfind q (snd st)); auto.
    + destruct (kfind k (snd st)) as [v0|] eqn:E2.
      * assert (K : knownp st k = Some v0) by (unfold knownp; rewrite E1; auto).
        destruct (same_type v0 v) eqn:ES; [|apply (STOP v0); auto].
        apply GO; [|unfold fitsp; cbn [fst snd]; rewrite K; apply same_type_iff; auto].
        split; intro q; cbn [fst snd kfind]; [|rewrite kfind_kset]; destruct (N.eqb_spec q k) as [->|].
        -- rewrite E1. auto.
        -- destruct (kfind q (fst st)); auto.
        -- rewrite kmem_kfind, E1, E2. auto.
        -- destruct (kfind q (snd st)); auto.
      * apply GO; [|unfold fitsp, knownp; cbn [fst snd]; rewrite E1, E2; auto].
        split; intro q; cbn [kfind]; destruct (N.eqb_spec q k) as [->|].
        -- rewrite E1. auto.
        -- destruct (kfind q (fst st)); auto.
        -- rewrite E2. auto.
        -- destruct (kfind q (snd st)); auto.
Qed.

Theorem replace_exact (vs : values) (s : solver) : NoDup (map fst vs) ->
  exists done rest s', vs = done ++ rest /\ (forall x, In x done -> fits s x) /\ replaced done s s' /\
    ((rest = [] /\ bstep C W (BValues vs) s = Ok s' None) \/
     (exists k v rest', rest = (k, v) :: rest' /\ ~ fits s (k, v) /\ bstep C W (BValues vs) s = Throw s' (IncorrectType k))).
Proof.
  intro ND. destruct (update_exact vs (s_vals s, s_tvals s) ND) as (done & rest & [v tv] & E & F & [P1 P2] & R).
  exists done, rest, (set_temp (set_vals s v) (s_tnfg s) tv). split; [exact E|]. split; [exact F|].
  split; [split; [exact P1|split; [exact P2|repeat split; reflexivity]]|].
  cbn [bstep]. unfold base_values, no_ret. destruct R as [[-> R]|(k & v' & rest' & -> & R1 & R2)].
  - left. rewrite R. auto.
  - right. exists k, v', rest'. rewrite R2. auto.
Qed.

(** ** The graph does not depend on the estimates *)
Lemma step_no_hands o (s s' : solver) r p : s_pcm s = Some p -> step C W o s = Ok s' r -> ~ hands_over o r -> s_nfg s' = s_nfg s.
Proof.
  intros Hp H NH. pose proof (step_inv C W o s Hp H) as (s1 & p' & b & [E0 E] & _ & _ & _ & Ho).
  assert (X : s_nfg s' = s_nfg s1).
  { destruct (optimises o b); [|subst; auto]. destruct (optimize_same C W s1 Ho) as (G1 & G2 & _). congruence. }
  rewrite X.
  assert (RO : forall fs vs x, fs = [] ->
    remove_outliers C (so_pcm W) fs vs (PSt p (s_nfg s) (s_vals s)) = Ok (PSt p' (s_nfg s1) (s_vals s1)) x -> s_nfg s1 = s_nfg s).
  { intros fs vs x -> G. unfold remove_outliers in G. cbn [ps_vals ps_pcm ps_nfg] in G. destruct (vinsert_all vs (s_vals s)); try discriminate.
    injection G as _ G _. auto. }
  destruct o as [fs vs opt|fs vs|c opt|a0 b0| |c|c|fs vs|fs vs|]; cbn [hands_over] in NH; try tauto.
  1,2: destruct E as [x E]; apply (RO fs vs x); auto; destruct fs; auto; exfalso; apply NH; discriminate.
  1,2: destruct E as (e & -> & _ & G & _); destruct e; [exfalso; apply NH; discriminate|exact G].
Qed.

Lemma hands_dec o r : {@hands_over O o r} + {~ hands_over o r}.
Proof.
  destruct o as [fs vs opt|fs vs|c opt|a0 b0| |c|c|fs vs|fs vs|]; cbn [hands_over]; auto.
  1,2: destruct fs; [right; intro X; apply X; reflexivity|left; discriminate].
  1,2: destruct r as [[e|]|]; [left; discriminate|right; intro X; apply X; reflexivity|left; discriminate].
Qed.

Lemma update_keeps_keys (vs : values) : forall (st st' : values * values) u, update_values vs st = Ok st' u ->
  forall k, kmem k (fst st') = kmem k (fst st).
Proof.
  induction vs as [|[k0 x] vs IH]; intros st st' u H k; cbn [update_values] in H; [injection H as <-; auto|].
  destruct (kfind k0 (fst st)) as [v0|] eqn:E1.
  - destruct (same_type v0 x); [|discriminate H]. rewrite (IH _ _ _ H). cbn [fst]. rewrite !kmem_kfind, kfind_kset. destruct (N.eqb_spec k k0) as [->|]; auto. rewrite E1. auto.
  - destruct (kfind k0 (snd st)) as [v0|]; [|apply (IH _ _ _ H)]. destruct (same_type v0 x); [|discriminate H]. rewrite (IH _ _ _ H). auto.
Qed.

Lemma values_keep vs (s s' : solver) r : bstep C W (BValues vs) s = Ok s' r ->
  s_pcm s' = s_pcm s /\ s_nfg s' = s_nfg s /\ forall k, kmem k (s_vals s') = kmem k (s_vals s).
Proof.
  cbn [bstep]. unfold no_ret, base_values. destruct (update_values vs (s_vals s, s_tvals s)) as [[v tv] []|[]|] eqn:E; cbn [obind]; try discriminate.
  intro H. injection H as <- _. split; auto. split; auto. cbn [s_vals set_temp set_vals set_pnv].
  exact (update_keeps_keys _ _ E).
Qed.

Theorem replace_lockstep : forall (h : list bop) (s t : solver) rs rt,
  replaces_only h -> starts_supplied sp (calls_of h) ->
  brun C W h (solver_init true) = Ok s rs -> run C W (calls_of h) (solver_init true) = Ok t rt ->
  s_pcm s = s_pcm t /\ s_nfg s = s_nfg t /\ forall k, kmem k (s_vals s) = kmem k (s_vals t).
Proof.
  induction h as [|x g IH] using rev_ind; intros s t rs rt HE HS H1 H2.
  { injection H1 as <- <-. injection H2 as <- <-. auto. }
  rewrite calls_app in HS, H2. apply brun_snoc in H1. destruct H1 as (s1 & rs1 & r1 & R1 & S1 & ->).
  assert (HE' : replaces_only g) by (intros o Ho; apply HE, in_or_app; auto).
  pose proof (HE x (in_elt x g [])) as HX. destruct x as [o|fs vs rm|rm| |c|vs]; try (destruct HX).
  2:{ cbn [calls_of flat_map] in HS, H2. rewrite app_nil_r in HS, H2. destruct (IH s1 t rs1 rt HE' HS R1 H2) as (I1 & I2 & I3).
      apply values_keep in S1. destruct S1 as (K1 & K2 & K3). split; [congruence|]. split; [congruence|]. intro k. rewrite K3. auto. }
  cbn [calls_of flat_map app] in HS, H2. pose proof (run_snoc C W _ _ _ H2) as (t1 & rt1 & q1 & R2 & S2 & ->).
  destruct (IH s1 t1 rs1 rt1 HE' (@starts_app O C _ _ HS) R1 R2) as (I1 & I2 & I3).
  destruct (hist_run C W _ R2) as [p I]. pose proof (hi_pcm I) as P2. assert (P1 : s_pcm s1 = Some p) by congruence.
  cbn [bstep] in S1.
  assert (A : s_pcm s = s_pcm t /\ r1 = q1).
  { destruct (bare o) eqn:EB.
    - destruct (@step_temp O C W _ _ _ _ _ P1 EB S1) as [-> ->]. destruct (@step_temp O C W _ _ _ _ _ P2 EB S2) as [-> ->]. auto.
    - destruct (@step_agree O C W W o o s1 t1 s t r1 q1 p) as [Z1 Z2]; auto.
      + rewrite EB. discriminate.
      + eapply run_tracked; eauto.
      + intros fs vs Hc l1 b l2 Hl Hn'. rewrite (hi_odom I) in Hn'. eapply (HS (calls_of g) o []); eauto. }
  destruct A as [A1 ->]. split; auto. split.
  - destruct (hands_dec o q1) as [HH|HH].
    + destruct (step_hands _ _ _ _ P1 S1 HH) as (p1 & Q1 & ->). destruct (step_hands _ _ _ _ P2 S2 HH) as (p2 & Q2 & ->). congruence.
    + rewrite (step_no_hands _ _ P1 S1 HH), (step_no_hands _ _ P2 S2 HH). auto.
  - intro k. rewrite (step_keys _ _ o _ P1 S1), (step_keys _ _ o _ P2 S2), I3. auto.
Qed.
End Replace.
