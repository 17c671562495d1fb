(** * Every outcome of an optimisation that follows an earlier one *)
From Coq Require Import QArith.
From Verif Require Import Prelude Keys KMap UMap Geometry Factors Pcm Solver ValuesProofs
  PcmSpec HistSpec StoreSpec EstSpec SolverProofs HistProofs StoreProofs UpdateProofs SafeProofs EstProofs ExcProofs ReoptSpec.
Set Implicit Arguments.
Local Open Scope nat_scope.

Section Reopt.
Variable O : tops.
Variable C : config.
Variable W : soracles O.
Notation solver := (solver O).
Notation op := (op O).
Notation start := (solver_init (O := O) true).
Notation half w := (negb (Qle_bool w (1 # 2))).

Lemma existsb_map_fn {A B} (f : B -> bool) (g : A -> B) l : existsb f (map g l) = existsb (fun x => f (g x)) l.
Proof. induction l; cbn; congruence. Qed.
Lemma existsb_same {A} (f g : A -> bool) l : (forall x, In x l -> f x = g x) -> existsb f l = existsb g l.
Proof. induction l as [|x l IH]; intro H; [reflexivity|]. cbn [existsb]. rewrite IH, (H x); cbn; auto. intros y Hy. apply H; cbn; auto. Qed.

Lemma nth_skipn_r {A} (d : A) j : forall n l, nth j (skipn n l) d = nth (n + j) l d.
Proof. induction n as [|n IH]; intros [|x l]; cbn; auto. destruct j; auto. Qed.

Lemma fixed_lcs_cases (s : solver) ws : forall k i,
  (existsb (fun j => half (nth j ws 0%Q) && (length (s_nfg s) <=? k + i + j)) (seq 0 (length ws)) = false /\
   exists g, fixed_lcs s k ws i = Ok s g) \/
  (existsb (fun j => half (nth j ws 0%Q) && (length (s_nfg s) <=? k + i + j)) (seq 0 (length ws)) = true /\
   fixed_lcs s k ws i = Throw s OutOfRange).
Proof.
  induction ws as [|w ws IH]; intros k i; [left; cbn; eauto|].
  cbn [length seq existsb nth fixed_lcs]. rewrite <- seq_shift, existsb_map_fn.
  specialize (IH k (S i)).
  assert (EX : forall l, existsb (fun j => half (nth j ws 0%Q) && (length (s_nfg s) <=? k + S i + j)) l =
               existsb (fun x => half (nth (S x) (w :: ws) 0%Q) && (length (s_nfg s) <=? k + i + S x)) l).
  { induction l as [|x l IHl]; [reflexivity|]. cbn [existsb]. rewrite IHl. cbn [nth].
    replace (k + i + S x) with (k + S i + x) by lia. reflexivity. }
  rewrite EX in IH. rewrite Nat.add_0_r.
  destruct (negb (Qle_bool w (1 # 2))); cbn [andb orb obind].
  - destruct (nth_error (s_nfg s) (k + i)) as [f|] eqn:EN.
    + assert (L : k + i < length (s_nfg s)) by (apply nth_error_Some; congruence).
      replace (length (s_nfg s) <=? k + i) with false by (symmetry; apply Nat.leb_gt; auto). cbn [obind orb].
      destruct IH as [[I1 [g I2]]|[I1 I2]]; rewrite I2; cbn [obind]; eauto.
    + apply nth_error_None in EN.
      replace (length (s_nfg s) <=? k + i) with true by (symmetry; apply Nat.leb_le; auto). cbn [obind orb]. auto.
  - destruct IH as [[I1 [g I2]]|[I1 I2]]; rewrite I2; cbn [obind]; eauto.
Qed.

Lemma optimize_ends (s : solver) p : s_pcm s = Some p -> num_odom_special p <= length (s_nfg s) ->
  disjoint_temps s -> total_optimiser W ->
  if c_gnc C && negb (c_fix C && (p_total p =? s_latest s)) then ends_as (optimize C W s) RFine
  else ends_as (optimize C W s) (reoptimised (c_fix C) (s_latest s) (s_w s) (num_odom_special p) (length (s_nfg s))).
Proof.
  intros Hp HK HD HO.
  assert (GB : gnc_branch C s = if c_gnc C && negb (c_fix C && (p_total p =? s_latest s)) then Some p else None).
  { unfold gnc_branch. rewrite Hp. reflexivity. }
  destruct (c_gnc C && negb (c_fix C && (p_total p =? s_latest s))).
  { cbn [ends_as]. assert (X : exists s', optimize C W s = Ok s' tt); [|destruct X; eauto]. apply optimize_ok; auto. unfold weights_fit. rewrite GB, app_length. intros _. lia. }
  assert (HD' := HD). destruct HD' as (A1 & A2 & A3). destruct (@vinsert_all_fresh O (s_tvals s) (s_vals s) A2 A3) as [full EV].
  unfold optimize. rewrite EV, GB. unfold reoptimised.
  assert (TL : forall g, ends_as (obind (call_opt W (Req g full None None) s) (fun s1 a =>
          if length (s_w s) <? s_latest s then Undef EigenMismatch
          else if length (s_nfg s) <? s_latest s then Undef EigenMismatch
          else
            match s_pcm s, c_debug C && negb (c_gn C) with
               | None, true => Undef NullDeref
               | _, _ => finish (answer_values a full)
                  (set_weights s1 (ones (length (s_nfg s) - s_latest s) ++ skipn (length (s_w s) - s_latest s) (s_w s))
                     (ones (length (s_tnfg s))) (s_ninl s1))
               end)) (if (length (s_w s) <? s_latest s) || (length (s_nfg s) <? s_latest s) then RBadTail else RFine)).
  { intro g. unfold call_opt.
    match goal with |- context [so_opt W ?tr ?r] => destruct (so_opt W tr r) as [a|] eqn:EA end; [|elim (HO _ _ EA)].
    cbn [obind]. destruct (length (s_w s) <? s_latest s); cbn [orb]; [reflexivity|].
    destruct (length (s_nfg s) <? s_latest s); [reflexivity|]. rewrite Hp. cbn [ends_as].
    match goal with |- exists s' u, ?x = _ => assert (X : exists s', x = Ok s' tt); [apply finish_ok; auto|destruct X; eauto] end. }
  destruct (c_fix C) eqn:HF; cbn [andb].
  2:{ cbn [obind]. apply TL. }
  unfold fixed_graph. rewrite Hp in TL |- *.
  replace (length (s_nfg s) <? num_odom_special p) with false by (symmetry; apply Nat.ltb_ge; auto).
  destruct (length (s_w s) <? s_latest s) eqn:EW; [reflexivity|]. apply Nat.ltb_ge in EW.
  assert (LS : length (skipn (length (s_w s) - s_latest s) (s_w s)) = s_latest s) by (rewrite skipn_length; lia).
  pose proof (fixed_lcs_cases s (skipn (length (s_w s) - s_latest s) (s_w s)) (num_odom_special p) 0) as X. rewrite LS in X.
  rewrite (@existsb_same _ _ (fun i => half (nth (length (s_w s) - s_latest s + i) (s_w s) 0%Q) &&
    (length (s_nfg s) <=? num_odom_special p + i)) (seq 0 (s_latest s))) in X.
  2:{ intros j _. rewrite nth_skipn_r, Nat.add_0_r. reflexivity. }
  destruct X as [[X1 [g X2]]|[X1 X2]]; rewrite X1, X2; cbn [obind].
  - apply TL.
  - cbn [ends_as]. eauto.
Qed.

Lemma c31_every h o h2 (s0 s1 s2 : solver) rs r rs2 q :
  run C W h start = Ok s0 rs -> step C W o s0 = Ok s1 r -> s_trace s1 = s_trace s0 ++ [q] ->
  run C W h2 s1 = Ok s2 rs2 -> s_trace s2 = s_trace s1 -> disjoint_temps s2 -> total_optimiser W ->
  exists n m, get_num_lc s1 = Val n /\ get_num_lc s2 = Val m /\ length (s_w s1) = length (s_nfg s1) /\
   ends_as (optimize C W s2)
     (if c_gnc C && negb (c_fix C && (m =? n)) then RFine
      else reoptimised (c_fix C) n (s_w s1)
             (length (sp_odoms (c_special C) (h ++ o :: h2)) + length (sp_others (h ++ o :: h2))) (length (s_nfg s2))).
Proof.
  intros H1 H2 HT H3 HU HD HO. destruct (hist_run C W _ H1) as (p & I).
  destruct (@step_opt_state O C W _ _ _ _ _ (hi_pcm I) H2) as [[p1 Hp1] D].
  destruct D as [(D1 & _)|(_ & D2 & D3)].
  { exfalso. rewrite D1 in HT. apply (f_equal (@length _)) in HT. rewrite app_length in HT. cbn in HT. lia. }
  destruct (@trace_grows O C W h2 s1 s2 rs2 p1 Hp1 H3) as (_ & U & [p2 Hp2]). destruct (U HU) as [U1 U2].
  assert (HR : run C W (h ++ o :: h2) start = Ok s2 (rs ++ r :: rs2)).
  { eapply run_app_ok; [exact H1|]. cbn [run]. rewrite H2. cbn [obind]. rewrite H3. reflexivity. }
  destruct (hist_run C W _ HR) as (p3 & J). pose proof (hi_pcm J) as Hp3. rewrite Hp2 in Hp3. injection Hp3 as <-.
  assert (EK : length (sp_odoms (c_special C) (h ++ o :: h2)) + length (sp_others (h ++ o :: h2)) = num_odom_special p2).
  { unfold num_odom_special. rewrite (hi_odom J), (hi_special J). reflexivity. }
  exists (s_latest s1), (p_total p2). split; [auto|]. split; [unfold get_num_lc; rewrite Hp2; reflexivity|]. split; [exact D2|].
  rewrite EK. pose proof (@optimize_ends s2 p2 Hp2) as X. rewrite U1, U2 in X.
  assert (HK : num_odom_special p2 <= length (s_nfg s2)).
  { rewrite (hi_nfg J). apply graph_of_room. }
  specialize (X HK HD HO). destruct (c_gnc C && negb (c_fix C && (p_total p2 =? s_latest s1))); exact X.
Qed.

(** The call that only optimises. *)
Lemma force_ends (s : solver) p v : s_pcm s = Some p -> c_log C = false -> ends_as (optimize C W s) v -> ends_as (step C W (OpForce [] []) s) v.
Proof.
  intros Hp HL H. cbn [step]. unfold force_update. rewrite (ingest_nil C W _ _ Hp). cbn [vinsert_all obind].
  assert (E : set_pnv s (Some p) (s_nfg s) (s_vals s) = s) by (destruct s; cbn in *; rewrite Hp; reflexivity).
  rewrite E. unfold log_status. rewrite HL. destruct v; cbn [ends_as] in *.
  - destruct H as (s' & a & ->). cbn. eauto.
  - rewrite H. reflexivity.
  - destruct H as (s' & ->). cbn. eauto.
  - rewrite H. reflexivity.
Qed.

Lemma c31_force h o h2 (s0 s1 s2 : solver) rs r rs2 q : c_log C = false ->
  run C W h start = Ok s0 rs -> step C W o s0 = Ok s1 r -> s_trace s1 = s_trace s0 ++ [q] ->
  run C W h2 s1 = Ok s2 rs2 -> s_trace s2 = s_trace s1 -> disjoint_temps s2 -> total_optimiser W ->
  exists n m, get_num_lc s1 = Val n /\ get_num_lc s2 = Val m /\ length (s_w s1) = length (s_nfg s1) /\
   ends_as (step C W (OpForce [] []) s2)
     (if c_gnc C && negb (c_fix C && (m =? n)) then RFine
      else reoptimised (c_fix C) n (s_w s1)
             (length (sp_odoms (c_special C) (h ++ o :: h2)) + length (sp_others (h ++ o :: h2))) (length (s_nfg s2))).
Proof.
  intros HL H1 H2 HT H3 HU HD HO. destruct (@c31_every h o h2 s0 s1 s2 rs r rs2 q H1 H2 HT H3 HU HD HO) as (n & m & A1 & A2 & A3 & A4).
  exists n, m. repeat split; auto. unfold get_num_lc in A2. destruct (s_pcm s2) as [p|] eqn:Hp; [|discriminate A2]. eapply force_ends; eauto.
Qed.

(** Before any optimisation there is nothing to go wrong. *)
Lemma c31_first h (s : solver) rs : run C W h start = Ok s rs -> s_trace s = [] -> disjoint_temps s -> total_optimiser W ->
  ends_as (optimize C W s) RFine.
Proof.
  intros H HT HD HO. destruct (hist_run C W _ H) as (p & I).
  destruct (@trace_grows O C W h start s rs _ eq_refl H) as (_ & U & _). destruct (U HT) as [U1 U2].
  assert (HK : num_odom_special p <= length (s_nfg s)) by (rewrite (hi_nfg I); apply graph_of_room).
  pose proof (@optimize_ends s p (hi_pcm I) HK HD HO) as X. rewrite U1, U2 in X. cbn in X.
  unfold reoptimised in X. cbn in X. rewrite !andb_false_r in X. destruct (c_gnc C && negb (c_fix C && (p_total p =? 0))); exact X.
Qed.
End Reopt.
