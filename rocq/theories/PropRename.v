(** * Property C72: the names of robots and the numbering of poses do not matter *)
From Coq Require Import Permutation QArith Lia.
From Verif Require Import Prelude Keys KMap UMap Geometry Factors Clique Pcm Solver Grid PcmSpec HistSpec
  CallsSpec CallsProofs RenameSpec RenameProofs MoveProofs Scenes.
Set Implicit Arguments.
Local Open Scope nat_scope.

(** New names for keys and prefixes give the same run in the new names: outcome, returned values,
    the whole state of the solver, everything handed to the optimiser. *)
Theorem C72_renaming : forall G pp C f r (W W' : soracles (node_ops G pp)) h,
  renames f r h -> zero_kept f r (c_special C) h -> follows f r W W' -> forall b,
  run (nm_config r C) W' (map (nm_op f r) h) (solver_init b) =
  nm_outcome f r (map (nm_ret f)) (run C W h (solver_init b)).
Proof. intros. apply renamed_run; auto. apply node_unread. Qed.
Print Assumptions C72_renaming.

Theorem C72_renaming_cov : forall G pp C f r (W W' : soracles (cov_ops G pp)) h,
  renames f r h -> zero_kept f r (c_special C) h -> follows f r W W' -> forall b,
  run (nm_config r C) W' (map (nm_op f r) h) (solver_init b) =
  nm_outcome f r (map (nm_ret f)) (run C W h (solver_init b)).
Proof. intros. apply renamed_run; auto. apply cov_unread. Qed.
Print Assumptions C72_renaming_cov.

(** The same for callers that catch exceptions and go on. *)
Theorem C72_renaming_caught : forall G pp C f r (W W' : soracles (node_ops G pp)) h,
  renames f r h -> zero_kept f r (c_special C) h -> follows f r W W' -> forall b,
  run_on (nm_config r C) W' (map (nm_op f r) h) (solver_init b) =
  match run_on C W h (solver_init b) with Val s => Val (nm_solver f r s) | Bad u => Bad u end.
Proof. intros. apply renamed_run_on; auto. apply node_unread. Qed.
Print Assumptions C72_renaming_caught.

Theorem C72_renaming_caught_cov : forall G pp C f r (W W' : soracles (cov_ops G pp)) h,
  renames f r h -> zero_kept f r (c_special C) h -> follows f r W W' -> forall b,
  run_on (nm_config r C) W' (map (nm_op f r) h) (solver_init b) =
  match run_on C W h (solver_init b) with Val s => Val (nm_solver f r s) | Bad u => Bad u end.
Proof. intros. apply renamed_run_on; auto. apply cov_unread. Qed.
Print Assumptions C72_renaming_caught_cov.

(** With optimisers, iteration orders and averages that need not have anything to do with each
    other in the two runs, the outlier rejection still holds the same in the new names. *)
Theorem C72_renaming_any_optimiser : forall G pp C f r (W W2 : soracles (node_ops G pp)) h s rs s2 rs2,
  renames f r h -> zero_kept f r (c_special C) h -> starts_supplied (c_special C) h ->
  w_freed (so_pcm W) = w_freed (so_pcm W2) ->
  run C W h (solver_init true) = Ok s rs -> run (nm_config r C) W2 (map (nm_op f r) h) (solver_init true) = Ok s2 rs2 ->
  s_pcm s2 = option_map (nm_pcm f r) (s_pcm s) /\ Permutation (s_nfg s2) (nm_graph f (s_nfg s)) /\
  map fst (s_vals s2) = map f (map fst (s_vals s)) /\ reported rs2 = map (option_map (nm_edge f)) (reported rs).
Proof. intros. eapply renamed_any; eauto. apply node_unread. Qed.
Print Assumptions C72_renaming_any_optimiser.

Theorem C72_renaming_any_optimiser_cov : forall G pp C f r (W W2 : soracles (cov_ops G pp)) h s rs s2 rs2,
  renames f r h -> zero_kept f r (c_special C) h -> starts_supplied (c_special C) h ->
  w_freed (so_pcm W) = w_freed (so_pcm W2) ->
  run C W h (solver_init true) = Ok s rs -> run (nm_config r C) W2 (map (nm_op f r) h) (solver_init true) = Ok s2 rs2 ->
  s_pcm s2 = option_map (nm_pcm f r) (s_pcm s) /\ Permutation (s_nfg s2) (nm_graph f (s_nfg s)) /\
  map fst (s_vals s2) = map f (map fst (s_vals s)) /\ reported rs2 = map (option_map (nm_edge f)) (reported rs).
Proof. intros. eapply renamed_any; eauto. apply cov_unread. Qed.
Print Assumptions C72_renaming_any_optimiser_cov.

(** ** Checking the hypotheses of a concrete history *)
Section Check.
Variable O : tops.
Notation op := (op O).
Variables (f : key -> key) (r : N -> N).
Definition given (h : list op) : list (factor O) :=
  flat_map (fun o => match call_of o with
                     | Some (fs, _) => flat_map (fun x => match x with Some y => [y] | None => [] end) fs
                     | None => [] end) h.
Lemma given_In h x : delivered h x -> In x (given h).
Proof.
  intros (o & fs & vs & Ho & K & Hx). apply in_flat_map. exists o. split; auto. rewrite K. apply in_flat_map.
  exists (Some x). split; auto. left; auto.
Qed.
Definition prefixes (h : list op) : list N :=
  map chr (flat_map (fun x => f_keys x) (given h)) ++ flat_map (fun o => match o with OpRemovePriors c _ => [c] | _ => [] end) h.
Lemma prefixes_In h c : prefix_used h c -> In c (prefixes h).
Proof.
  intros [(k & (x & Dx & Hk) & <-)|(opt & H)]; apply in_or_app.
  - left. apply in_map, in_flat_map. exists x. split; auto. apply given_In, Dx.
  - right. apply in_flat_map. exists (OpRemovePriors c opt). split; auto. left; auto.
Qed.
Definition renames_b (h : list op) : bool :=
  forallb (fun k => (chr (f k) =? r (chr k))%N) (flat_map (fun x => f_keys x) (given h)) &&
  forallb (fun x => match x with
                    | FBetween b => eqb (ksucc (f (b_from b)) =? f (b_to b))%N (ksucc (b_from b) =? b_to b)%N
                    | _ => true end) (given h) &&
  forallb (fun c => eqb (r c <? 128)%N (c <? 128)%N &&
                    forallb (fun d => eqb (schar (r c) <=? schar (r d))%Z (schar c <=? schar d)%Z) (prefixes h)) (prefixes h).
Lemma renames_check h : (forall a b, (a < b)%N -> (f a < f b)%N) -> (exists g, forall c, g (r c) = c) ->
  renames_b h = true -> renames f r h.
Proof.
  intros A B H. unfold renames_b in H. rewrite !andb_true_iff, !forallb_forall in H. destruct H as [[H1 H2] H3].
  constructor; auto.
  - intros k (x & Dx & Hk). apply N.eqb_eq, H1. apply in_flat_map. exists x. split; auto. apply given_In, Dx.
  - intros b Db. pose proof (H2 _ (given_In Db)) as X. cbv beta iota in X. apply eqb_prop in X. rewrite <- !N.eqb_eq, X. tauto.
  - intros c Hc. pose proof (H3 _ (prefixes_In Hc)) as X. apply andb_true_iff in X. destruct X as [X _]. apply eqb_prop in X.
    rewrite <- !N.ltb_lt, X. tauto.
  - intros c d Hc Hd. pose proof (H3 _ (prefixes_In Hc)) as X. apply andb_true_iff in X. destruct X as [_ X].
    rewrite forallb_forall in X. pose proof (X _ (prefixes_In Hd)) as Y. cbv beta in Y. apply eqb_prop in Y. rewrite <- !Z.leb_le, Y. tauto.
Qed.
Definition zero_b (sp : list N) (h : list op) : bool :=
  let l := flat_map (fun x => match x with FBetween b => [(chr (b_from b), b_to b)] | _ => [] end) (given h) in
  forallb (fun x => forallb (fun y =>
    negb ((snd x =? snd y)%N && existsb (N.eqb (chr (snd x))) sp && negb (fst x =? fst y)%N)
    || (f (sym (fst x) 0) =? sym (r (fst x)) 0)%N) l) l.
Lemma zero_check sp h : zero_b sp h = true -> zero_kept f r sp h.
Proof.
  unfold zero_b. cbv zeta. intros H b b' Hb Hb' E S0 N0. rewrite forallb_forall in H.
  assert (I : forall x, gives h x -> In (chr (b_from x), b_to x)
    (flat_map (fun x => match x with FBetween b => [(chr (b_from b), b_to b)] | _ => [] end) (given h))).
  { intros x Hx. apply in_flat_map. exists (FBetween x). split; [apply given_In, Hx|left; auto]. }
  pose proof (H _ (I _ Hb)) as X. cbv beta in X. rewrite forallb_forall in X. pose proof (X _ (I _ Hb')) as Y. cbn [fst snd] in Y.
  apply orb_true_iff in Y. destruct Y as [Y|Y]; [|apply N.eqb_eq; exact Y]. exfalso. apply negb_true_iff in Y.
  apply not_true_iff_false in Y. apply Y. rewrite !andb_true_iff. split; [split|].
  - apply N.eqb_eq; auto.
  - apply existsb_exists. exists (chr (b_to b)). split; auto. apply N.eqb_refl.
  - apply negb_true_iff, N.eqb_neq. auto.
Qed.
End Check.

(** ** The history used throughout, with robots called [c] and [d], poses of [d] numbered from 100
    and the landmarks called [n] *)
Definition r2 (c : N) : N := (c + 2)%N.
Definition f2 (k : key) : key := (k + 2 * idx_mod + if (k <? sym 98 0)%N then 0 else 100)%N.
Lemma f2_mono a b : (a < b)%N -> (f2 a < f2 b)%N.
Proof. intro H. unfold f2. destruct (N.ltb_spec a (sym 98 0)), (N.ltb_spec b (sym 98 0)); lia. Qed.
Lemma r2_back : exists g, forall c, g (r2 c) = c.
Proof. exists (fun c => (c - 2)%N). intro c. unfold r2. lia. Qed.
Lemma plain_follows O avg f r : (forall a b, (a < b)%N -> (f a < f b)%N) -> follows f r (plain_soracles O avg) (plain_soracles O avg).
Proof.
  intro H. constructor; intros; try reflexivity. cbn [plain_soracles so_opt nm_request rq_vals an_pose an_other an_w].
  repeat split; intros; rewrite (@kfind_r f H); reflexivity.
Qed.
Example C72_example : renames f2 r2 full_history /\ zero_kept f2 r2 (c_special C1) full_history /\ follows f2 r2 W1 W1 /\
  (exists s rs, run C1 W1 full_history (solver_init true) = Ok s rs /\ length (s_nfg s) = 11) /\
  (exists s rs, run (nm_config r2 C1) W1 (map (nm_op f2 r2) full_history) (solver_init true) = Ok s rs /\ length (s_nfg s) = 11).
Proof.
  split; [apply renames_check; [apply f2_mono|apply r2_back|vm_compute; reflexivity]|].
  split; [apply zero_check; vm_compute; reflexivity|].
  split; [apply plain_follows, f2_mono|]. split; apply run_check; vm_compute; reflexivity.
Qed.
(** A history that gives every robot its first variable together with its first odometry; the
    second run iterates in another order and its optimiser
    moves every pose. *)
Definition backwards : soracles O1 :=
  @SOracles O1 (Oracles O1 (fun _ x => if (fst x =? snd x)%N then 1 else 0) (fun _ _ => 0) (fun _ => Some (fwd 3)) (fun _ a => a))
    (fun _ _ => Some (Ans (O := O1) (fun _ => fwd 77) (fun _ => 0) (fun _ => 1%Q))).
Definition two_starts : list (op O1) :=
  [OpUpdate [pri (ka 0) gp_id; bet (ka 0) (ka 1) (fwd 10)] [val (ka 0) gp_id; val (ka 1) (fwd 10)] true;
   odo_a 1; odo_a 2; start_b; lc_good; lc_bad; lc_ab 0 0 100; lc_ab 1 1 100; lc_ab 2 0 300; lm_first; lm_again 2 (-15);
   OpRemovePriors 98 true; OpRemoveLast].
Example C72_any_example : renames f2 r2 two_starts /\ zero_kept f2 r2 (c_special C1) two_starts /\
  starts_supplied (c_special C1) two_starts /\ w_freed (so_pcm W1) = w_freed (so_pcm backwards) /\
  (exists s rs, run C1 W1 two_starts (solver_init true) = Ok s rs /\ length (s_nfg s) = 10) /\
  (exists s rs, run (nm_config r2 C1) backwards (map (nm_op f2 r2) two_starts) (solver_init true) = Ok s rs /\ length (s_nfg s) = 10).
Proof.
  split; [apply renames_check; [apply f2_mono|apply r2_back|vm_compute; reflexivity]|].
  split; [apply zero_check; vm_compute; reflexivity|].
  split; [apply starts_check; vm_compute; reflexivity|]. split; [reflexivity|].
  split; apply run_check; vm_compute; reflexivity.
Qed.

(** ** Numbering from zero matters when two robots see one landmark: the call that looks up how far
    apart two poses of different robots are creates the pose numbered zero of each (GraphUtils.h:37-58),
    and multi-robot alignment then asks for the value of a variable that was never given. *)
Definition shift7 (k : key) : key := (k + 7)%N.
Definition same_r (c : N) : N := c.
Definition shared_lm : list (op O1) := base ++ [lm_first; OpUpdate [bet (kb 0) (kl 1) (fwd (-95))] [] true].
Theorem C72_zero_refuted : exists (h : list (op O1)) f r s rs s' e,
  renames f r h /\ follows f r W1 W1 /\
  run cfg_align W1 h (solver_init true) = Ok s rs /\
  run (nm_config r cfg_align) W1 (map (nm_op f r) h) (solver_init true) = Throw s' e.
Proof.
  assert (A : exists s rs, run cfg_align W1 shared_lm (solver_init true) = Ok s rs /\ True).
  { apply run_check. vm_compute. exact I. }
  assert (B : exists s e, run (nm_config same_r cfg_align) W1 (map (nm_op shift7 same_r) shared_lm) (solver_init true) = Throw s e /\ True).
  { apply throw_check. vm_compute. exact I. }
  destruct A as (s & rs & A & _). destruct B as (s' & e & B & _). exists shared_lm, shift7, same_r, s, rs, s', e.
  assert (M : forall a b, (a < b)%N -> (shift7 a < shift7 b)%N) by (intros a b L; unfold shift7; lia).
  split; [apply renames_check; [exact M|exists (fun c => c); reflexivity|vm_compute; reflexivity]|].
  split; [apply plain_follows, M|]. split; [exact A|exact B].
Qed.
Print Assumptions C72_zero_refuted.

(** The order of the prefixes matters to multi-robot alignment: the robot with the smallest one is
    the one that stays where it is. *)
Definition swap_r (c : N) : N := if (c =? 97)%N then 98%N else if (c =? 98)%N then 97%N else c.
Definition swap_f (k : key) : key := (swap_r (chr k) * idx_mod + k mod idx_mod)%N.
Definition first_avg : soracles O1 :=
  @SOracles O1 (Oracles O1 (fun _ _ => 0) (fun _ _ => 0) (fun l => match l with x :: _ => Some x | [] => None end) (fun _ a => a))
    (so_opt W1).
Definition apart : list (op O1) := base ++ [lc_ab 0 0 200].
Definition seen_at (k : key) (s : solver O1) : Z :=
  match kfind k (s_vals s) with Some (VPose x) => gx x | _ => 0%Z end.
Lemma swap_back k : swap_f (swap_f k) = k.
Proof.
  assert (S1 : forall c, swap_r (swap_r c) = c).
  { intro c. unfold swap_r. destruct (N.eqb_spec c 97) as [->|A]; [reflexivity|]. destruct (N.eqb_spec c 98) as [->|B]; [reflexivity|].
    destruct (N.eqb_spec c 97), (N.eqb_spec c 98); congruence. }
  assert (C0 : chr (swap_f k) = swap_r (chr k)).
  { unfold swap_f, chr. rewrite N.div_add_l by discriminate. rewrite (N.div_small (k mod idx_mod)); [lia|]. apply N.mod_lt. discriminate. }
  assert (M0 : (swap_f k mod idx_mod = k mod idx_mod)%N).
  { unfold swap_f. rewrite N.add_comm, N.mod_add by discriminate. apply N.mod_mod. discriminate. }
  unfold swap_f at 1. rewrite C0, M0, S1. unfold chr. rewrite N.mul_comm. symmetry. apply N.div_mod. discriminate.
Qed.
Theorem C72_order_refuted : exists (h : list (op O1)) f r s rs s' rs' k,
  (forall x, f (f x) = x) /\ (forall c, r (r c) = c) /\ (forall x, chr (f x) = r (chr x)) /\
  (forall x, named h x -> ksucc (f x) = f (ksucc x)) /\
  run cfg_align first_avg h (solver_init true) = Ok s rs /\
  run (nm_config r cfg_align) first_avg (map (nm_op f r) h) (solver_init true) = Ok s' rs' /\
  kfind (f k) (s_vals s') <> kfind k (s_vals s).
Proof.
  assert (A : exists s rs, run cfg_align first_avg apart (solver_init true) = Ok s rs /\ seen_at (ka 0) s = 0%Z).
  { apply run_check. vm_compute. reflexivity. }
  assert (B : exists s rs, run (nm_config swap_r cfg_align) first_avg (map (nm_op swap_f swap_r) apart) (solver_init true) = Ok s rs /\
    seen_at (swap_f (ka 0)) s = (-100)%Z).
  { apply run_check. vm_compute. reflexivity. }
  destruct A as (s & rs & A1 & A2). destruct B as (s' & rs' & B1 & B2). exists apart, swap_f, swap_r, s, rs, s', rs', (ka 0).
  split; [apply swap_back|]. split; [|split; [|split; [|split; [exact A1|split; [exact B1|]]]]].
  - intro c. unfold swap_r. destruct (N.eqb_spec c 97) as [->|A]; [reflexivity|]. destruct (N.eqb_spec c 98) as [->|B]; [reflexivity|].
    destruct (N.eqb_spec c 97), (N.eqb_spec c 98); congruence.
  - intro x. unfold swap_f, chr. rewrite N.div_add_l by discriminate. rewrite (N.div_small (x mod idx_mod)); [lia|].
    apply N.mod_lt. discriminate.
  - intros x (y & Dy & Hy). apply given_In in Dy.
    assert (X : forallb (fun z => (ksucc (swap_f z) =? swap_f (ksucc z))%N) (flat_map (fun x => f_keys x) (given apart)) = true) by (vm_compute; reflexivity).
    rewrite forallb_forall in X. apply N.eqb_eq, X. apply in_flat_map. exists y. auto.
  - unfold seen_at in A2, B2. intro E. rewrite E in B2. rewrite A2 in B2. discriminate B2.
Qed.
Print Assumptions C72_order_refuted.
