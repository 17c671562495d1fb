(** * The example programs *)
From Coq Require Import Permutation.
From Coq Require Import String.
From Verif Require Import Prelude Num Keys KMap UMap Geometry Factors Clique Pcm Params Solver Programs
  ValuesProofs PcmSpec PcmProofs PcmInv PcmStore HistSpec SolverProofs HistProofs UpdateProofs DeliverProofs
  StoreSpec StoreProofs LiveProofs SafeProofs.
Set Implicit Arguments.
Local Open Scope nat_scope.

(** Two configurations reject alike. *)
Definition same_rejection (C C' : config) : Prop :=
  c_special C = c_special C' /\ c_odom_check C = c_odom_check C' /\ c_loop_check C = c_loop_check C' /\
  c_incremental C = c_incremental C'.

Lemma ksucc_neq k : ksucc k = k -> False.
Proof.
  unfold ksucc. assert (K : key_mod = 18446744073709551616%N) by reflexivity. rewrite K. clear K. intro X.
  assert (Y : (k < 18446744073709551616)%N) by (rewrite <- X; apply N.mod_lt; discriminate).
  destruct (N.eq_dec k 18446744073709551615) as [->|Z]; [vm_compute in X; discriminate|].
  rewrite N.mod_small in X; lia.
Qed.

Section Prog.
Variable O : tops.
Notation bf := (bf O).
Notation factor := (factor O).
Notation values := (values O).
Notation graph_t := (graph_t O).
Notation pcm := (pcm O).
Notation op := (op O).
Notation solver := (solver O).

Definition present (vs : values) (b : bf) : bool := kmem (b_from b) vs && kmem (b_to b) vs.

Lemma batch_same C C' vs cs (p : pcm) : same_rejection C C' -> batch C vs cs p = batch C' vs cs p.
Proof. destruct C, C'. intros (A & B & D & E). cbn in A, B, D, E. subst. reflexivity. Qed.

Lemma parse_present C vs cs : forall (x : pcm * numnew),
  rfold (parse_one C vs) cs x = rfold (parse_one C vs) (filter (present vs) cs) x.
Proof.
  induction cs as [|c cs IH]; intros [p nn]; cbn [rfold filter]; auto.
  destruct (present vs c) eqn:E.
  - cbn [rfold]. destruct (parse_one C vs c (p, nn)); cbn [rbind]; auto.
  - assert (X : parse_one C vs c (p, nn) = Val (p, nn)).
    { unfold parse_one. unfold present in E. apply andb_false_iff in E. destruct E as [-> | ->]; cbn [negb orb]; auto.
      rewrite orb_true_r. reflexivity. }
    rewrite X. cbn [rbind]. apply IH.
Qed.
Lemma batch_present C vs cs (p : pcm) : batch C vs cs p = batch C vs (filter (present vs) cs) p.
Proof. unfold batch, parse_all. rewrite parse_present. reflexivity. Qed.

(** Nothing stored yet. *)
Definition bare_pcm (p : pcm) : Prop := p_lcs p = [] /\ p_lms p = [] /\ p_good p = 0.
Lemma batch_nothing C vs cs (p : pcm) : bare_pcm p -> filter (present vs) cs = [] -> batch C vs cs p = Val p.
Proof.
  intros (H1 & H2 & H3) E. rewrite batch_present, E. unfold batch, parse_all, find_inliers. cbn [rfold rbind fst].
  rewrite H1, H2. cbn. f_equal. destruct p. cbn in *. subst. reflexivity.
Qed.

Definition back (g : graph_t) : graph_t := filter (@goes_back O) g.
Definition ahead (g : graph_t) : graph_t := filter (fun of => negb (goes_back of)) g.

Lemma update_odom_bare vals b (p p' : pcm) u : update_odom vals b p = Ok p' u -> bare_pcm p -> bare_pcm p'.
Proof.
  unfold update_odom. destruct (t_of O b); [|discriminate].
  destruct (ufind N.eqb _ _); cbn [obind].
  - intro H. inversion H; subst. auto.
  - destruct (kfind _ vals) as [[x|x]|]; cbn [obind]; try discriminate. intro H. inversion H; subst. auto.
Qed.

(** Odometry and other factors are processed on the way, closures only collected. *)
Lemma proc_ahead C vs vals fs : c_special C = [] -> (forall k, kmem k vals = kmem k vs) ->
  forall (p : pcm) acc o acc' o', bare_pcm p ->
  match proc_factors C vs vals fs p (acc, o), proc_factors C vs vals (ahead fs) p (acc', o') with
  | Ok p1 (l, _), Ok p2 (l', _) => p1 = p2 /\ bare_pcm p1 /\ exists d d', l = acc ++ d /\ l' = acc' ++ d' /\
      filter (present vs) d = filter (present vs) (cands C (back fs)) /\ filter (present vs) d' = []
  | Throw p1 e1, Throw p2 e2 => p1 = p2 /\ e1 = e2
  | Undef u, Undef v => u = v
  | _, _ => False
  end.
Proof.
  intros HS HK. induction fs as [|of fs IH]; intros p acc o acc' o' HB; cbn [proc_factors].
  - unfold ahead, back. cbn. split; auto. split; auto. exists [], []. rewrite !app_nil_r. auto.
  - assert (NS : forall k, is_special C k = false) by (intro k; unfold is_special; rewrite HS; reflexivity).
    destruct of as [f|].
    2:{ unfold ahead, back. cbn [filter goes_back negb]. cbn [proc_factors proc_factor obind]. apply IH; auto. }
    destruct f as [b|k x|k t|ks t].
    2-4: (unfold ahead, back; cbn [filter goes_back negb proc_factors proc_factor obind classify fst snd];
          apply IH; exact HB).
    assert (EC : classify C vs (FBetween b) = if (ksucc (b_from b) =? b_to b)%N && kmem (b_to b) vs then Odometry else LoopClosure).
    { unfold classify. rewrite !NS. reflexivity. }
    destruct (ksucc (b_from b) =? b_to b)%N eqn:ES.
    + assert (EA : ahead (Some (FBetween b) :: fs) = Some (FBetween b) :: ahead fs) by (unfold ahead; cbn [filter goes_back]; rewrite ES; reflexivity).
      assert (EB : back (Some (FBetween b) :: fs) = back fs) by (unfold back; cbn [filter goes_back]; rewrite ES; reflexivity).
      rewrite EA, EB. cbn [proc_factors proc_factor]. rewrite EC. cbn [andb].
      destruct (kmem (b_to b) vs) eqn:EM.
      * destruct (update_odom vals b p) as [p1 []|p1 e1|u] eqn:EU; cbn [obind]; auto.
        apply IH. eapply update_odom_bare; eauto.
      * assert (NF : (b_from b =? b_to b)%N = true -> False).
        { intro E. apply N.eqb_eq in E. apply N.eqb_eq in ES. rewrite E in ES. revert ES. clear.
          intro X. eapply ksucc_neq. exact X. }
        destruct (b_from b =? b_to b)%N; [destruct NF; auto|]. cbn [obind fst snd].
        specialize (IH p (acc ++ [b]) o (acc' ++ [b]) o' HB).
        destruct (proc_factors C vs vals fs p (acc ++ [b], o)) as [p1 [l x]|p1 e1|u],
          (proc_factors C vs vals (ahead fs) p (acc' ++ [b], o')) as [p2 [l' x']|p2 e2|v]; auto.
        destruct IH as (I1 & I2 & d & d' & I3 & I4 & I5 & I6). split; auto. split; auto. exists (b :: d), (b :: d').
        assert (PF : present vs b = false) by (unfold present; rewrite EM, andb_false_r; reflexivity).
        cbn [filter]. rewrite PF, <- !app_assoc in *. auto.
    + assert (EA : ahead (Some (FBetween b) :: fs) = ahead fs) by (unfold ahead; cbn [filter goes_back]; rewrite ES; reflexivity).
      assert (EB : back (Some (FBetween b) :: fs) = Some (FBetween b) :: back fs) by (unfold back; cbn [filter goes_back]; rewrite ES; reflexivity).
      rewrite EA, EB. cbn [proc_factor]. rewrite EC. cbn [andb].
      assert (EQ : cands C (Some (FBetween b) :: back fs) = (if (b_from b =? b_to b)%N then [] else [b]) ++ cands C (back fs)).
      { unfold cands. cbn [betweens flat_map app filter].
        assert (EQ : sp_candidate (c_special C) [] b = negb (b_from b =? b_to b)%N).
        { unfold sp_candidate, sp_odometry, sp_first, sp_supplied. cbn. rewrite !andb_false_r. reflexivity. }
        rewrite EQ. destruct (b_from b =? b_to b)%N; reflexivity. }
      rewrite EQ. destruct (b_from b =? b_to b)%N; cbn [obind fst snd app].
      * apply IH; auto.
      * specialize (IH p (acc ++ [b]) o acc' o' HB).
        destruct (proc_factors C vs vals fs p (acc ++ [b], o)) as [p1 [l x]|p1 e1|u],
          (proc_factors C vs vals (ahead fs) p (acc', o')) as [p2 [l' x']|p2 e2|v]; auto.
        destruct IH as (I1 & I2 & d & d' & I3 & I4 & I5 & I6). split; auto. split; auto. exists (b :: d), d'.
        cbn [filter]. rewrite <- !app_assoc in *. rewrite I5. auto.
Qed.

(** What processing does not depend on. *)
Lemma proc_same C C' vs vals fs : c_special C = c_special C' -> forall (p : pcm) acc,
  proc_factors C vs vals fs p acc = proc_factors C' vs vals fs p acc.
Proof. destruct C, C'. cbn. intros -> p acc. reflexivity. Qed.

(** ** The first call *)
Lemma first_call C w fs vs st b : c_incremental C = false -> fs <> [] ->
  remove_outliers C w fs vs (PSt (@pcm_init O) [] []) = Ok st b ->
  exists v p1 lcs o q, vinsert_all vs [] = Ok v tt /\ proc_factors C vs v fs pcm_init ([], false) = Ok p1 (lcs, o) /\
    (match lcs with [] => q = p1 | _ => batch C v lcs p1 = Val q end) /\
    ps_pcm st = settle C q /\ ps_nfg st = graph_of w (settle C q).
Proof.
  intros HI Hf H. unfold remove_outliers in H. cbn [ps_vals ps_pcm ps_nfg] in H.
  destruct (vinsert_all vs []) as [v []| |] eqn:EV; try discriminate.
  destruct fs as [|of fs]; [congruence|]. clear Hf. set (gs := of :: fs) in *.
  destruct (proc_factors C vs v gs pcm_init ([], false)) as [p1 [lcs o]| |] eqn:EP; try discriminate.
  rewrite HI in H.
  assert (G : forall q o', (if c_align C && (1 <? length (p_robots q)) then
       match align w (set_robots q (nsort (p_robots q))) v with
       | Ok vs' _ => Ok (PSt (set_robots q (nsort (p_robots q))) (graph_of w q) vs') o'
       | Throw _ e => Throw (PSt (set_robots q (nsort (p_robots q))) (graph_of w q) v) e
       | Undef u => Undef u
       end else Ok (PSt q (graph_of w q) v) o') = Ok st b ->
     ps_pcm st = settle C q /\ ps_nfg st = graph_of w (settle C q)).
  { intros q o'. unfold settle. destruct (c_align C && (1 <? length (p_robots q))).
    - destruct (align w _ v); try discriminate. intro X. inversion X; subst. auto.
    - intro X. inversion X; subst. auto. }
  destruct lcs as [|c l].
  - exists v, p1, [], o, p1. split; [auto|]. split; [auto|]. split; [auto|]. eapply G. exact H.
  - destruct (parse_all C v (c :: l) p1) as [[p2 nn]|] eqn:E2; cbn [rbind] in H; [|discriminate].
    destruct (find_inliers C p2) as [p3|] eqn:E3; cbn [rbind] in H; [|discriminate].
    exists v, p1, (c :: l), o, p3. split; [auto|]. split; [auto|].
    split. { unfold batch. rewrite E2. cbn [rbind fst]. exact E3. }
    eapply G. exact H.
Qed.

Lemma settle_frame C w (q : pcm) : graph_of w (settle C q) = graph_of w q.
Proof. unfold settle. destruct (_ && _); reflexivity. Qed.

Lemma first_step C W fs vs opt (s : solver) r : fs <> [] -> c_incremental C = false ->
  step C W (OpUpdate fs vs opt) (solver_init true) = Ok s r ->
  exists v p1 lcs o q, vinsert_all vs [] = Ok v tt /\ proc_factors C vs v fs (@pcm_init O) ([], false) = Ok p1 (lcs, o) /\
    (match lcs with [] => q = p1 | _ => batch C v lcs p1 = Val q end) /\
    s_pcm s = Some (settle C q) /\ s_nfg s = graph_of (so_pcm W) (settle C q) /\
    (forall k, kmem k (s_vals s) = kmem k vs).
Proof.
  intros Hf HI H. pose proof (step_inv C W _ _ (eq_refl : s_pcm (@solver_init O true) = Some pcm_init) H) as (s1 & p' & b & E & _ & _ & HR & HO).
  specialize (HR fs vs (or_intror (ex_intro _ opt eq_refl))).
  pose proof (remove_outliers_ok C W _ _ _ _ _ HR) as (_ & _ & _ & HK & _).
  change (s_nfg (@solver_init O true)) with (@nil (option factor)) in HR.
  change (s_vals (@solver_init O true)) with (@nil (key * value O)) in HR, HK.
  destruct (@first_call C (so_pcm W) fs vs _ _ HI Hf HR) as (v & p1 & lcs & o & q & Q1 & Q2 & Q3 & Q4 & Q5).
  cbn [ps_pcm ps_nfg] in Q4, Q5. destruct E as [Hp1 _].
  assert (HS : s_pcm s = s_pcm s1 /\ s_nfg s = s_nfg s1 /\ (forall k, kmem k (s_vals s) = kmem k (s_vals s1))).
  { destruct (optimises (OpUpdate fs vs opt) b); [|subst; auto]. apply optimize_same in HO. destruct HO as (A1 & A2 & _ & A3 & _). auto. }
  destruct HS as (S1 & S2 & S3).
  exists v, p1, lcs, o, q. split; [auto|]. split; [auto|]. split; [auto|]. split; [congruence|]. split; [congruence|].
  intro k. rewrite S3, HK. reflexivity.
Qed.

(** ** Both programs save the same graph *)
Lemma hands_each (l : graph_t) : Forall2 (@hands O) (map (fun of => OpUpdate [of] [] false) l) (map (fun of => [of]) l).
Proof. induction l; cbn; constructor; auto. reflexivity. Qed.
Lemma concat_each (l : graph_t) : concat (map (fun of => [of]) l) = l.
Proof. induction l; cbn; f_equal; auto. Qed.

Lemma others_back (g : graph_t) : others (back g) = [].
Proof.
  induction g as [|of g IH]; auto. unfold back. cbn [filter]. fold (back g).
  destruct of as [[b|k x|k t|ks t]|]; cbn [goes_back]; auto. destruct (negb _); auto.
Qed.

Lemma simulate_with_inv C W calls g vs (s : solver) : simulate_with C W calls g vs = Ok s tt ->
  exists k x rs, first_prior g vs = Ok tt (FPrior k x) /\ run C W (calls g vs (FPrior k x)) (solver_init true) = Ok s rs /\
    kfind k vs = Some (VPose x).
Proof.
  unfold simulate_with. destruct (first_prior g vs) as [[] f| |] eqn:EF; try discriminate.
  assert (HF : exists k x, f = FPrior k x /\ kfind k vs = Some (VPose x)).
  { unfold first_prior in EF. destruct g as [|[f0|] g]; try discriminate. destruct (f_keys f0) as [|k ks]; [discriminate|].
    destruct (kfind k vs) as [[x|]|] eqn:EK; try discriminate. inversion EF; subst. eauto. }
  destruct HF as (k & x & -> & HK). intro H. exists k, x.
  destruct (run C W (calls g vs (FPrior k x)) (solver_init true)) as [s' rs| |]; cbn [obind] in H; try discriminate.
  unfold save_data in H. destruct (g2o_throws (s_nfg s')); [discriminate|]. inversion H; subst. eauto.
Qed.

Theorem programs_agree C C' W W' g vs (s1 s2 : solver) :
  c_special C = [] -> c_incremental C = false -> same_rejection C C' -> so_pcm W = so_pcm W' ->
  simulate C W g vs = Ok s1 tt -> simulate_incremental C' W' g vs = Ok s2 tt ->
  s_nfg s1 = s_nfg s2 /\ (forall k, kmem k (s_vals s1) = kmem k (s_vals s2)) /\
  get_num_lc s1 = get_num_lc s2 /\ exists p1 p2, s_pcm s1 = Some p1 /\ s_pcm s2 = Some p2 /\ p_good p1 = p_good p2.
Proof.
  intros HSP HI HC HW H1 H2.
  apply simulate_with_inv in H1. destruct H1 as (k & x & rs1 & F1 & R1 & _).
  apply simulate_with_inv in H2. destruct H2 as (k' & x' & rs2 & F2 & R2 & _).
  rewrite F1 in F2. inversion F2; subst k' x'. clear F2.
  unfold batch_calls in R1. unfold incremental_calls in R2.
  set (nfg := g ++ [Some (FPrior k x)]) in *. cbn [run] in R1, R2.
  destruct (step C W (OpUpdate nfg vs true) (solver_init true)) as [t1 r1| |] eqn:E1; cbn [obind] in R1; try discriminate.
  inversion R1; subst t1 rs1. clear R1.
  change (filter (fun of => negb (goes_back of)) nfg) with (ahead nfg) in R2.
  change (filter (@goes_back O) nfg) with (back nfg) in R2.
  destruct (step C' W' (OpUpdate (ahead nfg) vs true) (solver_init true)) as [t2 r2| |] eqn:E2; cbn [obind] in R2; try discriminate.
  destruct (run C' W' (map (fun of => OpUpdate [of] [] false) (back nfg)) t2) as [t3 rs3| |] eqn:E3; cbn [obind] in R2; try discriminate.
  inversion R2; subst t3 rs2. clear R2.
  destruct HC as (C1 & C2 & C3 & C4). assert (HI' : c_incremental C' = false) by congruence.
  assert (HSP' : c_special C' = []) by congruence.
  assert (N1 : nfg <> []) by (unfold nfg; destruct g; discriminate).
  assert (N2 : ahead nfg <> []).
  { unfold nfg, ahead. rewrite filter_app. cbn [filter goes_back negb]. destruct (filter _ g); discriminate. }
  destruct (@first_step _ _ _ _ _ _ _ N1 HI E1) as (v & p1 & lcs & o & q & A1 & A2 & A3 & A4 & A5 & A6).
  destruct (@first_step _ _ _ _ _ _ _ N2 HI' E2) as (v' & p1' & lcs' & o' & q' & B1 & B2 & B3 & B4 & B5 & B6).
  rewrite A1 in B1. inversion B1; subst v'. clear B1.
  assert (KV : forall k, kmem k v = kmem k vs) by (intro k0; rewrite (vinsert_all_mem _ _ k0 A1); reflexivity).
  rewrite <- (@proc_same C C' vs v (ahead nfg) C1) in B2.
  assert (BI : bare_pcm pcm_init) by (split; auto).
  pose proof (@proc_ahead C vs v nfg HSP KV pcm_init [] false [] false BI) as P.
  rewrite A2, B2 in P. destruct P as (<- & BP & d & d' & D1 & D2 & D3 & D4). cbn [app] in D1, D2. subst d d'.
  assert (PV : forall l : list bf, filter (present v) l = filter (present vs) l).
  { intro l. apply filter_ext. intro b0. unfold present. rewrite !KV. auto. }
  rewrite <- PV in D4. rewrite <- !PV in D3.
  assert (Q' : q' = p1).
  { destruct lcs'; [auto|]. rewrite (@batch_nothing C' v _ p1 BP D4) in B3. inversion B3; auto. }
  subst q'. clear B3.
  assert (Q : batch C v (filter (present v) (cands C (back nfg))) p1 = Val q).
  { rewrite <- D3. destruct lcs as [|c l].
    - subst q. cbn [filter]. apply batch_nothing; auto.
    - rewrite <- batch_present. exact A3. }
  assert (FIN : exists p2, s_pcm s2 = Some p2 /\ s_nfg s2 = graph_of (so_pcm W') p2 /\ exists r, p2 = set_robots q r).
  { destruct (@split_run O C' W' HI' _ _ _ _ _ _ (hands_each (back nfg)) B4 B5 E3) as (p2 & S1 & S2 & S3).
    exists p2. split; [auto|]. split; [auto|]. rewrite concat_each in S3.
    assert (IN : intake C' (s_vals t2) (back nfg) p1 = Val q).
    { assert (EQ : cands C' (back nfg) = cands C (back nfg)) by (unfold cands; rewrite C1; reflexivity).
      unfold intake. rewrite EQ. unfold with_others. rewrite others_back, app_nil_r.
      assert (SS : set_special p1 (p_special p1) = p1) by (destruct p1; reflexivity). rewrite SS.
      rewrite <- (@batch_present C v (cands C (back nfg)) p1) in Q.
      destruct (cands C (back nfg)) as [|c l].
      - rewrite (@batch_nothing C v [] p1 BP eq_refl) in Q. exact Q.
      - rewrite (@batch_keys O C' (s_vals t2) v); [|intro k0; rewrite B6, KV; auto].
        rewrite <- (@batch_same C C'); [exact Q|]. repeat split; auto. }
    destruct (back nfg) as [|c l] eqn:EB.
    - subst p2. assert (IE : Val (set_special p1 (p_special p1 ++ [])) = Val q) by exact IN.
      rewrite app_nil_r in IE. assert (SS : set_special p1 (p_special p1) = p1) by (destruct p1; reflexivity).
      exists (p_robots (settle C' p1)). rewrite SS in IE. assert (p1 = q) by congruence. subst q. apply settle_robots.
    - destruct S3 as (q2 & T1 & ->). rewrite (settle_robots C' p1), intake_recast in T1.
      rewrite IN in T1. cbn [rmap] in T1. inversion T1; subst q2.
      exists (p_robots (settle C' (set_robots q (p_robots (settle C' p1))))). rewrite settle_robots. destruct q; reflexivity. }
  destruct FIN as (p2 & S1 & S2 & r & Hr).
  assert (KK : forall k, kmem k (s_vals s1) = kmem k (s_vals s2)).
  { intro k0. rewrite A6, <- B6. symmetry. clear - E3 HI' B4 B5. revert t2 rs3 E3 B4 B5.
    induction (back nfg) as [|c l IH] in p1 |- *; intros t2 rs3 E3 B4 B5; cbn [map run] in E3.
    - inversion E3; auto.
    - destruct (step C' W' (OpUpdate [c] [] false) t2) as [t3 r3| |] eqn:E4; cbn [obind] in E3; try discriminate.
      destruct (run C' W' _ t3) as [t4 r4| |] eqn:E5; cbn [obind] in E3; try discriminate. inversion E3; subst.
      destruct (@hands_step O C' W' HI' _ _ _ _ _ _ (eq_refl : hands (OpUpdate [c] [] false) [c]) B4 B5 E4) as (p' & P1 & P2 & P3 & P4).
      rewrite <- P3. destruct P4 as (q4 & _ & ->). eapply IH; eauto. }
  assert (S1' : s_nfg s1 = s_nfg s2).
  { rewrite A5, S2, settle_frame, Hr, HW. reflexivity. }
  split; [auto|]. split; [auto|]. unfold get_num_lc. rewrite A4, S1. subst p2.
  split; [unfold settle; destruct (_ && _); reflexivity|].
  exists (settle C q), (set_robots q r). split; [auto|]. split; [auto|]. unfold settle. destruct (_ && _); reflexivity.
Qed.

(** ** What the programs optimise *)
Lemma is_landmark_none C (b : bf) : c_special C = [] -> is_landmark_factor C b = false.
Proof. intro H. unfold is_landmark_factor, is_special. rewrite H. reflexivity. Qed.

Lemma first_estimate C W fs vs (s : solver) r : c_fix C = false -> sp_triggers (c_special C) vs fs = true ->
  step C W (OpUpdate fs vs true) (solver_init true) = Ok s r ->
  exists rq a, s_trace s = [rq] /\ rq_graph rq = s_nfg s /\ so_opt W [] rq = Some a /\
    (forall k, kfind k (s_vals s) = option_map (answer_value a k) (kfind k (rq_vals rq))) /\
    (c_align C = false -> forall k, kfind k (rq_vals rq) = kfind k vs).
Proof.
  intros HF HT H. cbn [step] in H. unfold no_ret in H.
  destruct (update C W fs vs true (solver_init true)) as [s' []| |] eqn:E; cbn [obind] in H; try discriminate.
  inversion H; subst s' r. clear H.
  destruct (update_inv C W fs vs true _ (eq_refl : s_pcm (@solver_init O true) = Some pcm_init) E) as (s1 & p1 & P1 & P2 & P3 & P4 & P5 & P6).
  rewrite HT in P6. cbn [andb] in P6. apply optimize_inv in P6. destruct P6 as (rq & a & full & Z).
  exists rq, a. destruct P3 as (T1 & T2 & T3 & T4 & T5).
  assert (ET : s_trace s1 = []) by (cbn in T1, T2, T3, T4, T5; assumption).
  assert (EG : s_tnfg s1 = []) by exact P4. assert (EV : s_tvals s1 = []) by exact P5.
  pose proof (oz_full Z) as F. rewrite EV in F. cbn [vinsert_all] in F. inversion F; subst full. clear F.
  split; [rewrite (oz_trace Z), ET; reflexivity|].
  split. { rewrite (oz_nfg Z). pose proof (oz_branch Z) as B. destruct (gnc_branch C s1) as [p|].
    - destruct B as (-> & _). cbn [rq_graph]. rewrite EG, app_nil_r. reflexivity.
    - destruct B as (_ & _ & B & _). rewrite (B HF), EG, app_nil_r. reflexivity. }
  split; [rewrite <- ET; apply (oz_ans Z)|].
  assert (KS : ksorted (s_vals s1)).
  { pose proof (remove_outliers_ok C W _ _ _ _ _ P2) as (_ & _ & _ & _ & K & _). apply K. apply ksorted_nil. }
  rewrite (oz_req Z). split.
  - pose proof (oz_vals Z) as V. rewrite EV in V.
    destruct (@update_values_answer O a (s_vals s1) (s_vals s1) []) as (v' & tv' & U1 & U2 & _).
    { apply ksorted_NoDup; auto. }
    { intros k y Hy. rewrite (kfind_sorted_In _ _ KS Hy). destruct y; reflexivity. }
    rewrite U1 in V. inversion V; subst. intro k. rewrite U2. destruct (kfind k (s_vals s1)); reflexivity.
  - intros HA k. pose proof (remove_outliers_vals C W _ _ _ P2 HA) as V. cbn [ps_vals] in V.
    apply vinsert_all_ok in V. destruct V as (V & _). rewrite V. reflexivity.
Qed.

Lemma prior_triggers sp vs (g : graph_t) k x : sp_triggers sp vs (g ++ [Some (FPrior k x)]) = true.
Proof. unfold sp_triggers. rewrite existsb_app. cbn. apply orb_true_r. Qed.

Theorem batch_estimate C W g vs (s : solver) : c_fix C = false -> simulate C W g vs = Ok s tt ->
  exists rq a, s_trace s = [rq] /\ rq_graph rq = s_nfg s /\ so_opt W [] rq = Some a /\
    (forall k, kfind k (s_vals s) = option_map (answer_value a k) (kfind k (rq_vals rq))) /\
    (c_align C = false -> forall k, kfind k (rq_vals rq) = kfind k vs).
Proof.
  intros HF H. apply simulate_with_inv in H. destruct H as (k & x & rs & F & R & _).
  unfold batch_calls in R. cbn [run] in R.
  destruct (step C W (OpUpdate (g ++ [Some (FPrior k x)]) vs true) (solver_init true)) as [t r| |] eqn:E; cbn [obind] in R; try discriminate.
  inversion R; subst. eapply first_estimate; eauto. apply prior_triggers.
Qed.

Lemma unoptimised_tail C W (l : graph_t) : forall (s s' : solver) rs, (exists p, s_pcm s = Some p) ->
  run C W (map (fun of => OpUpdate [of] [] false) l) s = Ok s' rs ->
  s_trace s' = s_trace s /\ (c_align C = false -> s_vals s' = s_vals s).
Proof.
  induction l as [|of l IH]; intros s s' rs [p Hp] H; cbn [map run] in H.
  - inversion H; auto.
  - destruct (step C W (OpUpdate [of] [] false) s) as [t r| |] eqn:E; cbn [obind] in H; try discriminate.
    destruct (run C W _ t) as [t' rs'| |] eqn:E2; cbn [obind] in H; try discriminate. inversion H; subst. clear H.
    cbn [step] in E. unfold no_ret in E. destruct (update C W [of] [] false s) as [t1 []| |] eqn:EU; cbn [obind] in E; try discriminate.
    inversion E; subst t1 r. clear E.
    destruct (update_inv C W _ _ _ _ Hp EU) as (s1 & p1 & P1 & P2 & P3 & P4 & P5 & P6).
    rewrite andb_false_r in P6. subst t.
    destruct (IH s1 s' rs') as [I1 I2]; eauto. destruct P3 as (T1 & T2 & T3 & T4 & T5).
    split; [congruence|]. intro HA. rewrite (I2 HA).
    pose proof (remove_outliers_vals C W _ _ _ P2 HA) as V. cbn [ps_vals vinsert_all] in V. inversion V. auto.
Qed.

Lemma betweens_ahead sp vs (g : graph_t) :
  filter (sp_odometry sp vs) (betweens (ahead g)) = filter (sp_odometry sp vs) (betweens g).
Proof.
  induction g as [|of g IH]; auto. unfold ahead. cbn [filter]. fold (ahead g).
  destruct of as [[b|k x|k t|ks t]|]; cbn [goes_back negb]; auto.
  destruct (ksucc (b_from b) =? b_to b)%N eqn:E; cbn [negb].
  - change (betweens (Some (FBetween b) :: ahead g)) with (b :: betweens (ahead g)).
    change (betweens (Some (FBetween b) :: g)) with (b :: betweens g). cbn [filter]. rewrite IH. auto.
  - change (betweens (Some (FBetween b) :: g)) with (b :: betweens g). cbn [filter].
    assert (X : sp_odometry sp vs b = false).
    { unfold sp_odometry. assert (Y : (b_to b =? (b_from b + 1) mod 2 ^ 64)%N = false).
      { apply N.eqb_neq. intro Y. apply N.eqb_neq in E. apply E. symmetry. exact Y. }
      rewrite Y, !andb_false_r. reflexivity. }
    rewrite X. exact IH.
Qed.
Lemma others_ahead (g : graph_t) : others (ahead g) = others g.
Proof.
  induction g as [|of g IH]; auto. unfold ahead. cbn [filter]. fold (ahead g).
  destruct of as [[b|k x|k t|ks t]|]; cbn [goes_back negb others flat_map app]; auto.
  - destruct (negb _); cbn [negb]; auto.
  - f_equal. exact IH.
  - f_equal. exact IH.
  - f_equal. exact IH.
Qed.

Theorem incremental_estimate C W g vs (s : solver) : c_fix C = false -> c_special C = [] ->
  simulate_incremental C W g vs = Ok s tt ->
  exists k x rq a, first_prior g vs = Ok tt (FPrior k x) /\ s_trace s = [rq] /\ so_opt W [] rq = Some a /\
    rq_graph rq = map Some (map FBetween (filter (sp_odometry [] vs) (betweens g)) ++ others g ++ [FPrior k x]) /\
    (c_align C = false -> forall k, kfind k (s_vals s) = option_map (answer_value a k) (kfind k vs)).
Proof.
  intros HF HS H. apply simulate_with_inv in H. destruct H as (k & x & rs & F & R & _).
  unfold incremental_calls in R. set (nfg := g ++ [Some (FPrior k x)]) in *. cbn [run] in R.
  change (filter (fun of => negb (goes_back of)) nfg) with (ahead nfg) in R.
  destruct (step C W (OpUpdate (ahead nfg) vs true) (solver_init true)) as [t r| |] eqn:E; cbn [obind] in R; try discriminate.
  destruct (run C W _ t) as [t' rs'| |] eqn:E2; cbn [obind] in R; try discriminate. inversion R; subst. clear R.
  assert (HT : sp_triggers (c_special C) vs (ahead nfg) = true).
  { unfold nfg, ahead. rewrite filter_app. cbn [filter goes_back negb]. apply prior_triggers. }
  destruct (@first_estimate C W _ vs t r HF HT E) as (rq & a & A1 & A2 & A3 & A4 & A5).
  exists k, x, rq, a. split; [exact F|].
  pose proof (step_inv C W _ _ (eq_refl : s_pcm (@solver_init O true) = Some pcm_init) E) as (s1 & p' & b & [EP EC] & _ & _ & HR & HO).
  assert (HP : exists p, s_pcm t = Some p).
  { destruct (optimises _ b); [|subst; eauto]. apply optimize_same in HO. destruct HO as (O1 & _). rewrite O1. eauto. }
  destruct (@unoptimised_tail C W _ t s rs' HP E2) as [U1 U2].
  split; [congruence|]. split; [auto|]. split.
  - rewrite A2. assert (N2 : ahead nfg <> []).
    { unfold nfg, ahead. rewrite filter_app. cbn [filter goes_back negb]. destruct (filter _ g); discriminate. }
    specialize (HR _ _ (or_intror (ex_intro _ true eq_refl))).
    pose proof (remove_outliers_ok C W _ _ _ _ _ HR) as (R1 & R2 & _ & _ & _ & R3).
    assert (NT : s_nfg t = s_nfg s1).
    { destruct (optimises _ b); [|subst; auto]. apply optimize_same in HO. destruct HO as (_ & O2 & _). exact O2. }
    pose proof (@ro_synced O C W _ _ _ _ _ _ _ _ _ HR (eq_refl : s_nfg (@solver_init O true) = graph_of (so_pcm W) pcm_init)) as SY.
    rewrite NT, SY.
    assert (ST : stored_ok C (fun _ => False) (fun _ => False) p').
    { apply R3.
      - intros y Hy Hc (_ & Ha & _).
        assert (K : kmem (b_to y) vs = true).
        { pose proof (remove_outliers_ok C W _ _ _ _ _ HR) as (_ & _ & _ & K & _). rewrite K in Ha. exact Ha. }
        unfold ahead in Hy. apply filter_In in Hy. destruct Hy as [_ Hy]. cbn [goes_back] in Hy. rewrite negb_involutive in Hy.
        unfold sp_candidate in Hc. apply andb_true_iff in Hc. destruct Hc as [Hc _]. apply andb_true_iff in Hc. destruct Hc as [Hc _].
        apply negb_true_iff in Hc. unfold sp_odometry in Hc. rewrite <- kmem_supplied, K in Hc. rewrite HS in Hc.
        assert (Y : (b_to y =? (b_from y + 1) mod 2 ^ 64)%N = true).
        { apply N.eqb_eq in Hy. apply N.eqb_eq. symmetry. exact Hy. }
        rewrite Y in Hc. discriminate.
      - intros y Hy Hl. rewrite is_landmark_none in Hl; [discriminate|auto].
      - apply stored_ok_init. }
    assert (NM : forall K (f : K * meas O -> list bf) (m : umap K (meas O)), (forall e, In e m -> f e = []) -> flat_map f m = []).
    { intros K f m. induction m as [|e m IH]; intro Hm; cbn; auto. rewrite Hm, IH; cbn; auto. intros; apply Hm; cbn; auto. }
    assert (NL : build_lcs (so_pcm W) p' = []).
    { unfold build_lcs. apply NM. intros [id m] Hm. destruct (ignored p' id); auto.
      assert (I : In (id, m) (p_lcs p')) by (eapply Permutation_in; [apply uiter_perm|exact Hm]).
      pose proof (proj1 (Forall_forall _ _) (so_lcs ST) _ I) as [L1 L2]. cbn [snd] in L1, L2.
      destruct (me_cons m) as [|c l]; auto. exfalso. specialize (L2 c (or_introl eq_refl)).
      pose proof (proj1 (Forall_forall _ _) L1 _ L2) as (_ & _ & X). exact X. }
    assert (NK : build_lms (so_pcm W) p' = []).
    { unfold build_lms. apply NM. intros [id m] Hm.
      assert (I : In (id, m) (p_lms p')) by (eapply Permutation_in; [apply uiter_perm|exact Hm]).
      pose proof (proj1 (Forall_forall _ _) (so_lms ST) _ I) as [L1 L2]. cbn [snd] in L1, L2.
      destruct (me_cons m) as [|c l]; auto. exfalso. specialize (L2 c (or_introl eq_refl)).
      pose proof (proj1 (Forall_forall _ _) L1 _ L2) as (_ & _ & X). exact X. }
    unfold graph_of, build. rewrite NL, NK, R1, R2, betweens_ahead, others_ahead. cbn [pcm_init p_odom p_special app map].
    rewrite !app_nil_r. unfold nfg. rewrite betweens_app, others_app, HS. cbn [betweens others flat_map app]. rewrite app_nil_r. reflexivity.
  - intros HA k0. rewrite (U2 HA), A4, (A5 HA). reflexivity.
Qed.

(** ** No undefined behaviour *)
Lemma optimize_first_safe C W (s : solver) p u : s_pcm s = Some p -> c_fix C = false -> s_latest s = 0 ->
  num_odom_special p <= length (s_nfg s) -> optimize C W s <> Undef u.
Proof.
  intros Hp HF HL HR. unfold optimize.
  destruct (vinsert_all (s_tvals s) (s_vals s)) as [full []|v e|u'] eqn:EV; [|discriminate|exfalso; eapply vinsert_all_not_undef; eauto].
  unfold gnc_branch. rewrite Hp, HF. cbn [andb negb].
  assert (FN : forall r t, finish (O := O) r t <> Undef u).
  { intros r t. unfold finish. destruct (update_values r (s_vals t, s_tvals t)) as [[v tv] x|[v tv] e|u'] eqn:E; try discriminate.
    exfalso. eapply update_values_not_undef; eauto. }
  destruct (c_gnc C); cbn [andb].
  - replace (c_bias C && (length (s_nfg s ++ s_tnfg s) <? num_odom_special p)) with false.
    2:{ symmetry. apply andb_false_iff. right. apply Nat.ltb_ge. rewrite app_length. lia. }
    unfold call_opt. destruct (so_opt W _ _); cbn [obind]; [|discriminate]. apply FN.
  - cbn [obind]. unfold call_opt. destruct (so_opt W _ _); cbn [obind]; [|discriminate].
    rewrite HL. cbn [Nat.ltb Nat.leb]. apply FN.
Qed.

Lemma no_removal_gentle C W (h : list op) : no_removal h -> gentle C W h.
Proof.
  intros H h1 o h2 id E Ht. assert (X : is_removal o = false) by (apply H; rewrite E; apply in_elt).
  destruct o; try discriminate.
Qed.

Definition good_graph (g : graph_t) : Prop := forall b, In (Some (FBetween b)) g -> t_of O b <> None.

Lemma first_call_safe C W fs vs u : c_fix C = false -> c_special C = [] -> good_graph fs -> small C (length fs) ->
  step C W (OpUpdate fs vs true) (solver_init true) <> Undef u.
Proof.
  intros HF HS HG HM. cbn [step]. unfold no_ret, update.
  assert (DG : forall b, In (Some (FBetween b)) fs -> decent C b).
  { intros b Hb. split; [apply HG; auto|]. unfold sp_lmk. rewrite HS. cbn. discriminate. }
  pose proof (@safe_ingest O C W [] (solver_init true) [] fs vs) as X.
  destruct (ingest C W fs vs (solver_init true)) as [s1 b| |u'] eqn:E; cbn [obind]; [|discriminate|].
  2:{ exfalso. apply (X u'); auto. - intros y (o & f & v & [] & _). - intros h1 o h2 id Eh. destruct h1; discriminate. }
  clear X. unfold ingest in E. cbn [solver_init s_pcm] in E. apply run_pcm_inv in E. destruct E as (p' & P1 & P2 & P3 & P4 & P5).
  assert (RM : num_odom_special p' <= length (s_nfg s1)).
  { rewrite (@ro_synced O C W _ _ _ _ _ _ _ _ _ P2 (eq_refl : s_nfg (@solver_init O true) = graph_of (so_pcm W) pcm_init)).
    apply graph_of_room. }
  destruct P5 as (T1 & T2 & T3 & T4 & T5).
  assert (HL : s_latest s1 = 0) by (cbn in T1, T2, T3, T4, T5; assumption).
  assert (LG : forall t : solver, (exists p, s_pcm t = Some p) -> obind (log_status C t) (fun s _ => Ok s (@None (option (key * key)))) <> Undef u).
  { intros t [p Hp]. unfold log_status. destruct (c_log C); cbn [obind]; [|discriminate]. rewrite Hp. destruct (g2o_throws _); discriminate. }
  destruct (b && true).
  - pose proof (fun v => @optimize_first_safe C W s1 p' v P1 HF HL RM) as OS.
    destruct (optimize C W s1) as [s2 []| |v] eqn:EO; cbn [obind]; [|discriminate|exfalso; apply (OS v); auto].
    apply LG. apply optimize_same in EO. destruct EO as (O1 & _). rewrite O1. eauto.
  - cbn [obind]. apply LG. eauto.
Qed.

Lemma tail_safe C W u : c_special C = [] -> forall l h (s : solver) rs,
  run C W h (solver_init true) = Ok s rs -> (forall b, delivered h (FBetween b) -> t_of O b <> None) -> no_removal h ->
  good_graph l -> small C (length (sp_all h) + length l) ->
  run C W (map (fun of => OpUpdate [of] [] false) l) s <> Undef u.
Proof.
  intros HS. induction l as [|of l IH]; intros h s rs H HD HR HG HM; cbn [map run]; [discriminate|].
  assert (DD : forall b : bf, t_of O b <> None -> decent C b).
  { intros b Hb. split; [auto|]. unfold sp_lmk. rewrite HS. cbn. discriminate. }
  pose proof (@safe_ingest O C W h s rs [of] []) as X. cbn [step]. unfold no_ret, update.
  destruct (ingest C W [of] [] s) as [s1 b| |u'] eqn:E; cbn [obind]; [|discriminate|].
  2:{ exfalso. apply (X u'); auto.
      - intros b Hb. apply DD, HD. exact Hb.
      - apply no_removal_gentle; auto.
      - intros b [Hb|[]]. apply DD, HG. left. auto.
      - cbn [length]. eapply small_mono; [|exact HM]. cbn [length]. lia. }
  rewrite andb_false_r. cbn [obind].
  assert (R1 : run C W (h ++ [OpUpdate [of] [] false]) (solver_init true) = Ok s1 (rs ++ [None])).
  { rewrite run_snoc_eq, H. cbn [obind step]. unfold no_ret, update. rewrite E. cbn [obind]. rewrite andb_false_r. reflexivity. }
  pose proof (IH _ _ _ R1) as Y.
  destruct (run C W (map (fun of => OpUpdate [of] [] false) l) s1) as [s2 r2| |v]; cbn [obind]; try discriminate.
  intros EU. apply Y; auto.
  - intros b0 (o & fs & vs & Ho & Hc & Hb). apply in_app_or in Ho. destruct Ho as [Ho|[<-|[]]].
    + apply HD. exists o, fs, vs. auto.
    + cbn in Hc. inversion Hc; subst. destruct Hb as [->|[]]. apply HG. left. auto.
  - intros o Ho. apply in_app_or in Ho. destruct Ho as [Ho|[<-|[]]]; auto.
  - intros b0 Hb. apply HG. right. auto.
  - eapply small_mono; [|exact HM]. unfold sp_all. rewrite flat_map_app, app_length. cbn. lia.
Qed.

(** The first factor exists and has a variable. *)
Definition starts_well (g : graph_t) : Prop := exists f k ks g', g = Some f :: g' /\ f_keys f = k :: ks.

Lemma first_prior_safe (g : graph_t) vs u : starts_well g -> first_prior g vs <> Undef u.
Proof.
  intros (f & k & ks & g' & -> & E). cbn [first_prior]. rewrite E. destruct (kfind k vs) as [[]|]; discriminate.
Qed.

Lemma simulate_with_safe C W calls g vs u : starts_well g ->
  (forall k x, run C W (calls g vs (FPrior k x)) (solver_init true) <> Undef u) -> simulate_with C W calls g vs <> Undef u.
Proof.
  intros HS H. unfold simulate_with. pose proof (@first_prior_safe g vs u HS) as F.
  destruct (first_prior g vs) as [[] f| |v] eqn:EF; [|discriminate|congruence].
  assert (HF : exists k x, f = FPrior k x).
  { unfold first_prior in EF. destruct g as [|[f0|] g]; try discriminate. destruct (f_keys f0) as [|k ks]; [discriminate|].
    destruct (kfind k vs) as [[x|]|] eqn:EK; try discriminate. inversion EF; subst. eauto. }
  destruct HF as (k & x & ->). specialize (H k x).
  destruct (run C W (calls g vs (FPrior k x)) (solver_init true)) as [s rs| |v]; cbn [obind]; [|discriminate|congruence].
  unfold save_data. destruct (g2o_throws _); discriminate.
Qed.

Lemma good_app g1 g2 : good_graph g1 -> good_graph g2 -> good_graph (g1 ++ g2).
Proof. intros H1 H2 b Hb. apply in_app_or in Hb. destruct Hb; auto. Qed.
Lemma good_filter f g : good_graph g -> good_graph (filter f g).
Proof. intros H b Hb. apply filter_In in Hb. apply H. tauto. Qed.
Lemma good_prior k x : good_graph [Some (FPrior k x)].
Proof. intros b [Hb|[]]. discriminate. Qed.

Theorem batch_safe C W g vs u : c_fix C = false -> c_special C = [] -> starts_well g -> good_graph g -> small C (S (length g)) ->
  simulate C W g vs <> Undef u.
Proof.
  intros HF HS HW HG HM. apply simulate_with_safe; auto. intros k x. unfold batch_calls. cbn [run].
  pose proof (fun v => @first_call_safe C W (g ++ [Some (FPrior k x)]) vs v HF HS) as X.
  destruct (step C W _ (solver_init true)) as [s r| |v]; cbn [obind]; try discriminate.
  intros _. apply (X v); auto; [apply good_app; auto; apply good_prior|]. rewrite app_length. cbn. eapply small_mono; [|exact HM]. lia.
Qed.

Lemma filter_split {A} (f : A -> bool) l : length (filter (fun x => negb (f x)) l) + length (filter f l) = length l.
Proof. induction l as [|x l IH]; cbn; auto. destruct (f x); cbn; lia. Qed.

Theorem incremental_safe C W g vs u : c_fix C = false -> c_special C = [] -> starts_well g -> good_graph g -> small C (S (length g)) ->
  simulate_incremental C W g vs <> Undef u.
Proof.
  intros HF HS HW HG HM. apply simulate_with_safe; auto. intros k x. unfold incremental_calls.
  set (nfg := g ++ [Some (FPrior k x)]). assert (GN : good_graph nfg) by (apply good_app; auto; apply good_prior).
  assert (LN : length (ahead nfg) + length (back nfg) = S (length g)).
  { unfold ahead, back. rewrite filter_split. unfold nfg. rewrite app_length. cbn. lia. }
  change (filter (fun of => negb (goes_back of)) nfg) with (ahead nfg). change (filter (@goes_back O) nfg) with (back nfg).
  pose proof (fun v => @first_call_safe C W (ahead nfg) vs v HF HS) as X.
  pose proof (@tail_safe C W u HS (back nfg) [OpUpdate (ahead nfg) vs true]) as Y. cbn [run] in *.
  destruct (step C W (OpUpdate (ahead nfg) vs true) (solver_init true)) as [s r| |v]; cbn [obind] in *; try discriminate.
  2:{ intros _. apply (X v); auto; [apply good_filter; auto|]. eapply small_mono; [|exact HM]. lia. }
  specialize (Y s [r] eq_refl).
  destruct (run C W (map (fun of => OpUpdate [of] [] false) (back nfg)) s) as [s2 r2| |v]; cbn [obind]; try discriminate.
  intros E. apply Y; auto.
  - intros b (o & fs & vs' & [<-|[]] & Hc & Hb). cbn in Hc. inversion Hc; subst.
    unfold ahead in Hb. apply filter_In in Hb. apply GN. tauto.
  - intros o [<-|[]]. auto.
  - apply good_filter; auto.
  - unfold sp_all. cbn [flat_map call_of]. rewrite app_nil_r. rewrite LN. auto.
Qed.

End Prog.

(** ** Command lines *)
Section Lines.
Variables (stof stod : string -> Programs.parsed double) (stoi : string -> Programs.parsed Z).
Notation main_batch := (main_batch stof).
Notation main_incremental := (main_incremental stof stod stoi).

Lemma try_read_solves {A} (p : Programs.parsed A) d check k j : try_read p d check k = Solves j ->
  (exists x, p = Parsed x /\ k x (check x) = Solves j) \/ (p = Malformed /\ k d false = Solves j).
Proof. destruct p; cbn; intro H; [left; eauto|right; auto|discriminate]. Qed.

Lemma dim_solves dim mk j : dim_job dim mk = Solves j ->
  exists d : bool, dim = (if d then "3d" else "2d")%string /\ j = mk d.
Proof.
  unfold dim_job. destruct (String.eqb dim "2d") eqn:E; intro H.
  - apply String.eqb_eq in E. exists false. inversion H. auto.
  - destruct (String.eqb dim "3d") eqn:E3; [|discriminate]. apply String.eqb_eq in E3. exists true. inversion H. auto.
Qed.

(** The flag that turns messages on. *)
Definition flag_verbosity (o : option string) : verbosity :=
  match o with Some f => if String.eqb f "v" then VVerbose else VQuiet | None => VQuiet end.

Lemma batch_line argv j : main_batch argv = Solves j -> exists name (d : bool) file a3 a4 a5 folder rest t r b,
  argv = name :: (if d then "3d" else "2d")%string :: file :: a3 :: a4 :: a5 :: folder :: rest /\
  stof a3 = Parsed t /\ stof a4 = Parsed r /\ stof a5 = Parsed b /\
  j = Job d file folder [LogOutput; SetPcmSimple d t r (flag_verbosity (hd_error rest)); SetGnc false false].
Proof.
  destruct argv as [|name [|dim [|file [|a3 [|a4 [|a5 [|folder rest]]]]]]]; try discriminate. cbn [Programs.main_batch]. intro H.
  apply try_read_solves in H. destruct H as [(t & Et & H)|(Et & H)];
  apply try_read_solves in H; destruct H as [(r & Er & H)|(Er & H)];
  apply try_read_solves in H; destruct H as [(b & Eb & H)|(Eb & H)]; cbn [andb negb] in H; try discriminate.
  apply dim_solves in H. destruct H as (d & -> & ->). exists name, d, file, a3, a4, a5, folder, rest, t, r, b.
  repeat (split; [auto|]). destruct rest; reflexivity.
Qed.

Lemma batch_line_conv name (d : bool) file a3 a4 a5 folder rest t r b :
  stof a3 = Parsed t -> stof a4 = Parsed r -> stof a5 = Parsed b ->
  main_batch (name :: (if d then "3d" else "2d")%string :: file :: a3 :: a4 :: a5 :: folder :: rest) =
  Solves (Job d file folder [LogOutput; SetPcmSimple d t r (flag_verbosity (hd_error rest)); SetGnc false false]).
Proof.
  intros H1 H2 H3. cbn [Programs.main_batch]. rewrite H1, H2, H3. cbn [try_read andb negb].
  destruct d, rest; reflexivity.
Qed.

Definition bit (b : bool) : Z := if b then 1%Z else 0%Z.

Lemma bit_read z : (z =? 0)%Z || (z =? 1)%Z = true -> exists b, z = bit b.
Proof.
  intro H. apply orb_prop in H. destruct H as [H|H]; apply Z.eqb_eq in H; subst; [exists false|exists true]; reflexivity.
Qed.

Definition gnc_wanted (g : double) : bool := dlt dzero g && dlt g done_.

Lemma incremental_line argv j : main_incremental argv = Solves j -> exists name (d : bool) file a3 a4 a5 a6 a7 rest inc gnc (al : bool) t r,
  argv = name :: (if d then "3d" else "2d")%string :: file :: a3 :: a4 :: a5 :: a6 :: a7 :: rest /\
  stoi a3 = Parsed (bit inc) /\ stod a4 = Parsed gnc /\ stoi a5 = Parsed (bit al) /\ stof a6 = Parsed t /\ stof a7 = Parsed r /\
  dneg gnc = false /\ dlt done_ gnc = false /\
  (inc = true -> deq t dminus1 = false /\ deq r dminus1 = false) /\
  j = Job d file (match rest with f :: _ => f | [] => "."%string end)
    ([LogOutput] ++ (if inc then [SetIncremental] else []) ++
     (if gnc_wanted gnc then [SetGnc false false] else []) ++ (if al then [SetAlign true] else []) ++
     [SetPcmSimple d t r (flag_verbosity (nth_error rest 1))]).
Proof.
  destruct argv as [|name [|dim [|file [|a3 [|a4 [|a5 [|a6 [|a7 rest]]]]]]]]; try discriminate. cbn [Programs.main_incremental]. intro H.
  apply try_read_solves in H. destruct H as [(i & Ei & H)|(Ei & H)];
  apply try_read_solves in H; destruct H as [(g & Eg & H)|(Eg & H)];
  apply try_read_solves in H; destruct H as [(a & Ea & H)|(Ea & H)];
  apply try_read_solves in H; destruct H as [(t & Et & H)|(Et & H)];
  apply try_read_solves in H; destruct H as [(r & Er & H)|(Er & H)];
  rewrite ?andb_false_l, ?andb_false_r in H; cbn [negb] in H; try discriminate.
  match type of H with (if negb ?c then _ else _) = _ => destruct c eqn:EC; cbn [negb] in H; [|discriminate] end.
  apply andb_prop in EC. destruct EC as [EC E5]. apply andb_prop in EC. destruct EC as [EC E4].
  apply andb_prop in EC. destruct EC as [EC E3]. apply andb_prop in EC. destruct EC as [E1 E2].
  apply bit_read in E1. destruct E1 as [inc ->]. apply bit_read in E3. destruct E3 as [al ->].
  apply negb_true_iff in E2. apply orb_false_elim in E2. destruct E2 as [E2 E2'].
  apply dim_solves in H. destruct H as (d & -> & ->).
  exists name, d, file, a3, a4, a5, a6, a7, rest, inc, g, al, t, r.
  repeat (split; [solve [auto]|]). split.
  - intros ->. cbn in E4, E5. rewrite andb_true_r in E4, E5. apply negb_true_iff in E4, E5. auto.
  - destruct inc, al; destruct rest as [|f [|v rest]]; reflexivity.
Qed.

Lemma incremental_line_conv name (d : bool) file a3 a4 a5 a6 a7 rest inc gnc al t r :
  stoi a3 = Parsed (bit inc) -> stod a4 = Parsed gnc -> stoi a5 = Parsed (bit al) -> stof a6 = Parsed t -> stof a7 = Parsed r ->
  dneg gnc = false -> dlt done_ gnc = false -> (inc = true -> deq t dminus1 = false /\ deq r dminus1 = false) ->
  main_incremental (name :: (if d then "3d" else "2d")%string :: file :: a3 :: a4 :: a5 :: a6 :: a7 :: rest) =
  Solves (Job d file (match rest with f :: _ => f | [] => "."%string end)
    ([LogOutput] ++ (if inc then [SetIncremental] else []) ++
     (if gnc_wanted gnc then [SetGnc false false] else []) ++ (if al then [SetAlign true] else []) ++
     [SetPcmSimple d t r (flag_verbosity (nth_error rest 1))])).
Proof.
  intros H1 H2 H3 H4 H5 G1 G2 HI. cbn [Programs.main_incremental]. rewrite H1, H2, H3, H4, H5. cbn [try_read].
  rewrite G1, G2. replace ((bit inc =? 0)%Z || (bit inc =? 1)%Z) with true by (destruct inc; reflexivity).
  replace ((bit al =? 0)%Z || (bit al =? 1)%Z) with true by (destruct al; reflexivity).
  replace (deq t dminus1 && (bit inc =? 1)%Z) with false.
  2:{ destruct inc; [destruct (HI eq_refl) as [-> _]; reflexivity|symmetry; apply andb_false_r]. }
  replace (deq r dminus1 && (bit inc =? 1)%Z) with false.
  2:{ destruct inc; [destruct (HI eq_refl) as [_ ->]; reflexivity|symmetry; apply andb_false_r]. }
  cbn [orb andb negb]. destruct d, inc, al; destruct rest as [|f [|v rest]]; reflexivity.
Qed.

Definition asked (t r : double) : bool := negb (dneg r) && negb (dneg t).
Definition chatty (v : verbosity) : bool := match v with VQuiet => false | _ => true end.

Lemma batch_config d file folder t r v : let P := job_params (Job d file folder [LogOutput; SetPcmSimple d t r v; SetGnc false false]) in
  config_of P = Cfg [] (asked t r) (asked t r) false false true false false false (chatty v) true /\
  pr_method P = (if d then MSimple3D else MSimple2D) /\
  pr_pcm P = PcmParams (pp_odom pcm_params_default) (pp_lc pcm_params_default) t r t r false.
Proof.
  cbn zeta. unfold job_params, params_after, asked. cbn [j_setters fold_left apply_setter set_method params_default].
  split; [|split; reflexivity]. unfold config_of, odom_check, loop_check. cbn. rewrite negb_orb. reflexivity.
Qed.

Lemma incremental_config d file folder inc g al t r v :
  let P := job_params (Job d file folder ([LogOutput] ++ (if inc : bool then [SetIncremental] else []) ++
     (if g : bool then [SetGnc false false] else []) ++ (if al : bool then [SetAlign true] else []) ++ [SetPcmSimple d t r v])) in
  config_of P = Cfg [] (asked t r) (asked t r) inc al g false false false (chatty v) true /\
  pr_method P = (if d then MSimple3D else MSimple2D) /\
  pr_pcm P = PcmParams (pp_odom pcm_params_default) (pp_lc pcm_params_default) t r t r inc.
Proof.
  cbn zeta. unfold job_params, params_after, asked. destruct inc, g, al;
  cbn [app j_setters fold_left apply_setter set_method params_default];
  (split; [|split; reflexivity]); unfold config_of, odom_check, loop_check; cbn; rewrite negb_orb; reflexivity.
Qed.

End Lines.

(** ** The programs as started from command lines *)
Lemma lines_agree G stof stod stoi argv argv' j j' w :
  main_batch stof argv = Solves j -> main_incremental stof stod stoi argv' = Solves j' ->
  nth_error argv 1 = nth_error argv' 1 -> nth_error argv 3 = nth_error argv' 6 -> nth_error argv 4 = nth_error argv' 7 ->
  nth_error argv' 3 = Some w -> stoi w = Parsed 0%Z ->
  tops_of G (job_params j) = tops_of G (job_params j') /\
  forall O (W W' : soracles O) g vs s1 s2, so_pcm W = so_pcm W' ->
    simulate (config_of (job_params j)) W g vs = Ok s1 tt ->
    simulate_incremental (config_of (job_params j')) W' g vs = Ok s2 tt ->
    s_nfg s1 = s_nfg s2 /\ (forall k, kmem k (s_vals s1) = kmem k (s_vals s2)) /\ get_num_lc s1 = get_num_lc s2.
Proof.
  intros H H' E1 E3 E4 E5 EW.
  apply batch_line in H. destruct H as (n & d & f & a3 & a4 & a5 & fo & rest & t & r & b & -> & S3 & S4 & S5 & ->).
  apply incremental_line in H'.
  destruct H' as (n' & d' & f' & b3 & b4 & b5 & b6 & b7 & rest' & inc & gnc & al & t' & r' & -> & T3 & T4 & T5 & T6 & T7 & _ & _ & _ & ->).
  cbn [nth_error] in E1, E3, E4, E5. injection E1 as E1. injection E3 as E3. injection E4 as E4. injection E5 as E5. subst w b6 b7.
  assert (d = d') by (destruct d, d'; auto; discriminate). subst d'.
  rewrite S3 in T6. rewrite S4 in T7. injection T6 as ->. injection T7 as ->.
  rewrite EW in T3. destruct inc; [discriminate|].
  destruct (batch_config d f fo t' r' (flag_verbosity (hd_error rest))) as (B1 & B2 & B3).
  destruct (incremental_config d f' (match rest' with x :: _ => x | [] => "."%string end) false (gnc_wanted gnc) al t' r' (flag_verbosity (nth_error rest' 1))) as (I1 & I2 & I3).
  cbn zeta in B1, B2, B3, I1, I2, I3. split.
  - unfold tops_of. rewrite B2, B3, I2, I3. reflexivity.
  - intros O W W' g vs s1 s2 HW. rewrite B1, I1. intros R1 R2.
    edestruct (@programs_agree O) as (X1 & X2 & X3 & _); [| | | |exact R1|exact R2|auto]; auto. repeat split; auto.
Qed.

Lemma batch_facts stof argv j : main_batch stof argv = Solves j ->
  c_special (config_of (job_params j)) = [] /\ c_fix (config_of (job_params j)) = false /\
  c_align (config_of (job_params j)) = false /\ c_incremental (config_of (job_params j)) = false /\
  forall G, exists pp, tops_of G (job_params j) = node_ops G pp.
Proof.
  intro H. apply batch_line in H. destruct H as (n & d & f & a3 & a4 & a5 & fo & rest & t & r & b & -> & S3 & S4 & S5 & ->).
  destruct (batch_config d f fo t r (flag_verbosity (hd_error rest))) as (B1 & B2 & B3). cbn zeta in B1, B2, B3. rewrite B1.
  repeat (split; [reflexivity|]). intro G. unfold tops_of. rewrite B2. destruct d; eauto.
Qed.

Lemma incremental_facts stof stod stoi argv j : main_incremental stof stod stoi argv = Solves j ->
  c_special (config_of (job_params j)) = [] /\ c_fix (config_of (job_params j)) = false /\
  (nth_error argv 5 = None \/ exists w, nth_error argv 5 = Some w /\ stoi w = Parsed (bit (c_align (config_of (job_params j))))) /\
  forall G, exists pp, tops_of G (job_params j) = node_ops G pp.
Proof.
  intro H. apply incremental_line in H.
  destruct H as (n' & d & f & b3 & b4 & b5 & b6 & b7 & rest & inc & gnc & al & t & r & -> & T3 & T4 & T5 & T6 & T7 & _ & _ & _ & ->).
  destruct (incremental_config d f (match rest with x :: _ => x | [] => "."%string end) inc (gnc_wanted gnc) al t r (flag_verbosity (nth_error rest 1))) as (I1 & I2 & I3).
  cbn zeta in I1, I2, I3. rewrite I1. repeat (split; [reflexivity|]). split; [right; exists b5; auto|].
  intro G. unfold tops_of. rewrite I2. destruct d; eauto.
Qed.

(** Every measurement has a Gaussian noise model. *)
Definition gaussian {O} (g : graph_t O) : Prop := forall b, In (Some (FBetween b)) g -> b_noise b <> NonGauss.

Lemma node_good G pp (g : graph_t (node_ops G pp)) : gaussian g -> good_graph g.
Proof.
  intros HG b Hb H. apply (HG b Hb). cbn [t_of node_ops] in H. unfold pn_of in H.
  destruct b as [f t x [c|]]; [cbn in H; inversion H|reflexivity].
Qed.

Lemma ends_iff {O} (calls : graph_t O -> values O -> factor O -> list (op O)) C W g vs : 
  (starts_well g -> forall u, simulate_with C W calls g vs <> Undef u) ->
  (forall u, simulate_with C W calls g vs <> Undef u) <-> starts_well g.
Proof.
  intro H. split; [|auto]. intro N. unfold simulate_with, first_prior in N.
  destruct g as [|[f|] g]; [destruct (N OutOfBounds); reflexivity| |destruct (N NullDeref); reflexivity].
  destruct (f_keys f) as [|k ks] eqn:E; [destruct (N OutOfBounds); reflexivity|].
  exists f, k, ks, g. auto.
Qed.

Lemma batch_ends G stof argv j : main_batch stof argv = Solves j ->
  forall (W : soracles (tops_of G (job_params j))) g vs, gaussian g ->
  (forall u, simulate (config_of (job_params j)) W g vs <> Undef u) <-> starts_well g.
Proof.
  intros H W g vs HG. destruct (batch_facts _ _ H) as (F1 & F2 & F3 & F4 & F5). destruct (F5 G) as [pp E]. clear F5.
  apply ends_iff. intros HW u. apply batch_safe; auto.
  - revert g vs HG HW W. rewrite E. intros. apply node_good; auto.
  - intro X. rewrite F4 in X. discriminate.
Qed.

Lemma incremental_ends G stof stod stoi argv j : main_incremental stof stod stoi argv = Solves j ->
  forall (W : soracles (tops_of G (job_params j))) g vs, gaussian g -> (Z.of_nat (S (length g)) < size_t_mod)%Z ->
  (forall u, simulate_incremental (config_of (job_params j)) W g vs <> Undef u) <-> starts_well g.
Proof.
  intros H W g vs HG HL. destruct (incremental_facts _ _ _ _ H) as (F1 & F2 & _ & F5). destruct (F5 G) as [pp E]. clear F5.
  apply ends_iff. intros HW u. apply incremental_safe; auto.
  - revert g vs HG HL HW W. rewrite E. intros. apply node_good; auto.
  - intros _. exact HL.
Qed.

Lemma first_prior_inv {O} (g : graph_t O) vs k x : first_prior g vs = Ok tt (FPrior k x) ->
  exists f ks, hd_error g = Some (Some f) /\ f_keys f = k :: ks /\ kfind k vs = Some (VPose x).
Proof.
  unfold first_prior. destruct g as [|[f|] g]; try discriminate. destruct (f_keys f) as [|k' ks] eqn:E; [discriminate|].
  destruct (kfind k' vs) as [[y|]|] eqn:EK; try discriminate. intro H. inversion H; subst. exists f, ks. auto.
Qed.

Lemma batch_saves G stof argv j : main_batch stof argv = Solves j ->
  forall (W : soracles (tops_of G (job_params j))) g vs s, simulate (config_of (job_params j)) W g vs = Ok s tt ->
  exists rq a, s_trace s = [rq] /\ rq_graph rq = s_nfg s /\ so_opt W [] rq = Some a /\
    (forall k, kfind k (rq_vals rq) = kfind k vs) /\
    forall k, kfind k (s_vals s) = option_map (answer_value a k) (kfind k vs).
Proof.
  intros H W g vs s R. destruct (batch_facts _ _ H) as (F1 & F2 & F3 & F4 & _).
  destruct (@batch_estimate _ _ W g vs s F2 R) as (rq & a & A1 & A2 & A3 & A4 & A5). exists rq, a. repeat (split; [auto|]).
  intro k. rewrite A4. rewrite A5; auto.
Qed.

Lemma incremental_saves G stof stod stoi argv j : main_incremental stof stod stoi argv = Solves j ->
  forall (W : soracles (tops_of G (job_params j))) g vs s, simulate_incremental (config_of (job_params j)) W g vs = Ok s tt ->
  exists f k ks x rq a, hd_error g = Some (Some f) /\ f_keys f = k :: ks /\ kfind k vs = Some (VPose x) /\
    s_trace s = [rq] /\ so_opt W [] rq = Some a /\
    rq_graph rq = map Some (map FBetween (filter (sp_odometry [] vs) (betweens g)) ++ others g ++ [FPrior k x]) /\
    (c_align (config_of (job_params j)) = false -> forall k, kfind k (s_vals s) = option_map (answer_value a k) (kfind k vs)).
Proof.
  intros H W g vs s R. destruct (incremental_facts _ _ _ _ H) as (F1 & F2 & _).
  destruct (@incremental_estimate _ _ W g vs s F2 F1 R) as (k & x & rq & a & A0 & A1 & A2 & A3 & A4).
  apply first_prior_inv in A0. destruct A0 as (f & ks & X1 & X2 & X3). exists f, k, ks, x, rq, a. auto 10.
Qed.
