(** * Property C74: what is accepted for some robots depends only on what is said about them *)
From Coq Require Import QArith Lia.
From Verif Require Import Prelude Num Keys KMap UMap Geometry Factors Clique Pcm Params Solver Grid
  PcmSpec PcmProofs HistSpec StoreSpec RemoveSpec ApartSpec ApartProofs ApartMore Scenes.
Local Open Scope nat_scope.

(** Two histories that say the same, call by call, about two robots, with any other robots, any
    optimiser and any iteration orders: the same closures between the two are in the graph. *)
Theorem C74_two_robots : forall O C (W W' : soracles O) h h' s s' rs rs' x y,
  same_share (c_special C) (fun c => (c =? x) || (c =? y))%N (between_robots (c_special C) x y) (fun k => (chr k =? x) || (chr k =? y))%N h h' ->
  same_removals C W W' (x, y) h h' ->
  starts_fresh (c_special C) x h -> starts_fresh (c_special C) y h -> starts_fresh (c_special C) x h' -> starts_fresh (c_special C) y h' ->
  (c_loop_check C = true -> records_sound C W h /\ records_sound C W' h') ->
  run C W h (solver_init true) = Ok s rs -> run C W' h' (solver_init true) = Ok s' rs' -> pair_ignored h (x, y) = pair_ignored h' (x, y) ->
  graph_lcs C h (x, y) (s_nfg s) = graph_lcs C h' (x, y) (s_nfg s').
Proof. exact two_robots. Qed.
Print Assumptions C74_two_robots.

(** Without removals nothing about records is needed. *)
Theorem C74_two_robots_no_removal : forall O C (W W' : soracles O) h h' s s' rs rs' x y,
  same_share (c_special C) (fun c => (c =? x) || (c =? y))%N (between_robots (c_special C) x y) (fun k => (chr k =? x) || (chr k =? y))%N h h' ->
  starts_fresh (c_special C) x h -> starts_fresh (c_special C) y h -> starts_fresh (c_special C) x h' -> starts_fresh (c_special C) y h' ->
  run C W h (solver_init true) = Ok s rs -> run C W' h' (solver_init true) = Ok s' rs' ->
  no_removal h -> no_removal h' -> pair_ignored h (x, y) = pair_ignored h' (x, y) ->
  graph_lcs C h (x, y) (s_nfg s) = graph_lcs C h' (x, y) (s_nfg s').
Proof.
  intros. eapply two_robots; eauto; [apply removals_none; auto|]. intros _. split; apply sound_none; auto.
Qed.
Print Assumptions C74_two_robots_no_removal.

(** The same of a landmark and the robots that see it, in every mode and with removals. *)
Theorem C74_landmark : forall O C (W W' : soracles O) h h' s s' rs rs' R l, sp_landmark (c_special C) l = true ->
  same_share (c_special C) R (sights (c_special C) l) (fun k => R (chr k) || (k =? l)%N) h h' -> seen_by (c_special C) R l h ->
  (forall c, R c = true -> starts_fresh (c_special C) c h) -> (forall c, R c = true -> starts_fresh (c_special C) c h') ->
  run C W h (solver_init true) = Ok s rs -> run C W' h' (solver_init true) = Ok s' rs' ->
  graph_lms C h l (s_nfg s) = graph_lms C h' l (s_nfg s').
Proof. exact one_landmark. Qed.
Print Assumptions C74_landmark.

(** A check for [starts_fresh] on concrete histories. *)
Definition all_betweens {O} (h : list (op O)) : list (bf O) :=
  flat_map (fun o => match call_of o with Some (fs, _) => betweens fs | None => [] end) h.
Fixpoint fresh_from {O} (sp : list N) (c : N) (done todo : list (op O)) : bool :=
  match todo with
  | [] => true
  | o :: todo' =>
      match call_of o with
      | Some (fs, vs) =>
          existsb (fun b => (chr (b_to b) =? c)%N) (sp_odoms sp done) ||
          match find (fun b => (chr (b_to b) =? c)%N) (filter (sp_odometry sp vs) (betweens fs)) with
          | Some b => (chr (b_from b) =? c)%N && sp_supplied vs (b_from b) &&
              forallb (fun b => negb (chr (b_from b) =? c)%N && negb (chr (b_to b) =? c)%N) (all_betweens done)
          | None => true
          end
      | None => true
      end && fresh_from sp c (done ++ [o]) todo'
  end.
Lemma find_first A (f : A -> bool) l1 b l2 : (forall x, In x l1 -> f x = false) -> f b = true -> find f (l1 ++ b :: l2) = Some b.
Proof.
  intros H E. induction l1 as [|x l1 IH]; cbn [app find]; [rewrite E; auto|]. rewrite (H x (or_introl eq_refl)). apply IH. intros y Y. apply H. right. exact Y.
Qed.
Lemma fresh_from_sound {O} sp c (todo : list (op O)) : forall done, fresh_from sp c done todo = true ->
  forall h1 o h2 fs vs l1 b l2, todo = h1 ++ o :: h2 -> call_of o = Some (fs, vs) ->
    filter (sp_odometry sp vs) (betweens fs) = l1 ++ b :: l2 -> chr (b_to b) = c ->
    (forall b', In b' (sp_odoms sp (done ++ h1) ++ l1) -> chr (b_to b') <> c) ->
    chr (b_from b) = c /\ In (b_from b) (map fst vs) /\
    forall b', delivered (done ++ h1) (FBetween b') -> chr (b_from b') <> c /\ chr (b_to b') <> c.
Proof.
  induction todo as [|x todo IH]; intros done H h1 o h2 fs vs l1 b l2 E Hc Hf Hb Hn; [destruct h1; discriminate E|].
  cbn [fresh_from] in H. apply andb_true_iff in H. destruct H as [H1 H2]. destruct h1 as [|y h1]; cbn [app] in E; injection E as -> E.
  - rewrite Hc in H1. rewrite app_nil_r in *. apply orb_true_iff in H1. destruct H1 as [H1|H1].
    { apply existsb_exists in H1. destruct H1 as (b' & X & Y). apply N.eqb_eq in Y. elim (Hn b'); auto. apply in_or_app. auto. }
    rewrite Hf, find_first in H1; [|intros b' X; apply N.eqb_neq, Hn, in_or_app; auto|apply N.eqb_eq; exact Hb].
    rewrite !andb_true_iff, forallb_forall in H1. destruct H1 as [[A1 A2] A3]. apply N.eqb_eq in A1.
    split; auto. split; [unfold sp_supplied in A2; destruct (in_dec N.eq_dec (b_from b) (map fst vs)); [auto|discriminate A2]|].
    intros b' (o' & fs' & vs' & X1 & X2 & X3). specialize (A3 b'). rewrite andb_true_iff, !negb_true_iff, !N.eqb_neq in A3. apply A3.
    unfold all_betweens. apply in_flat_map. exists o'. split; auto. rewrite X2. unfold betweens. apply in_flat_map. exists (Some (FBetween b')). split; auto. left. auto.
  - subst todo. replace (done ++ y :: h1) with ((done ++ [y]) ++ h1) in * by (rewrite <- app_assoc; reflexivity).
    apply (IH _ H2 h1 o h2 fs vs l1 b l2); auto.
Qed.
Lemma fresh_check {O} sp c (h : list (op O)) : fresh_from sp c [] h = true -> starts_fresh sp c h.
Proof. intros H h1 o h2 fs vs l1 b l2. apply (fresh_from_sound sp c h [] H). Qed.

Lemma seen_check {O} sp R l (h : list (op O)) :
  forallb (fun b => negb (sights sp l b) || ((R (chr (b_from b)) || (b_from b =? l)%N) && (R (chr (b_to b)) || (b_to b =? l)%N))) (all_betweens h) = true -> seen_by sp R l h.
Proof.
  intros H b (o & fs & vs & X1 & X2 & X3) Hs. rewrite forallb_forall in H. specialize (H b). rewrite Hs in H. cbn [negb orb] in H.
  rewrite andb_true_iff, !orb_true_iff, !N.eqb_eq in H. apply H. unfold all_betweens. apply in_flat_map. exists o. split; auto. rewrite X2.
  unfold betweens. apply in_flat_map. exists (Some (FBetween b)). split; auto. left. auto.
Qed.

(** Robots [a], [b] and [c], with closures and sightings of all sorts; and the same without [c] and without what
    does not concern [a] and [b] (or [a] and the landmark), the calls being empty where nothing is left. *)
Definition start3_a := OpUpdate [pri (ka 0) gp_id; bet (ka 0) (ka 1) (fwd 10)] [val (ka 0) gp_id; val (ka 1) (fwd 10)] true.
Definition start3_c := OpUpdate [bet (kc 0) (kc 1) (fwd 10)] [val (kc 0) (fwd 50); val (kc 1) (fwd 60)] true.
Definition mixed3 := OpUpdate [bet (ka 0) (kc 0) (fwd 50); bet (ka 0) (kb 0) (fwd 100); bet (kc 1) (kc 2) (fwd 10); bet (ka 0) (kb 1) (fwd 999); bet (kc 1) (kb 0) (fwd 40)]
  [val (kc 2) (fwd 70)] true.
Definition only3 := OpUpdate [bet (ka 0) (kb 0) (fwd 100); bet (ka 0) (kb 1) (fwd 999)] [] false.
Definition seen3 := OpUpdate [bet (ka 0) (kl 1) (fwd 5); bet (kc 0) (kl 2) (fwd 5)] [val (kl 1) (fwd 5); val (kl 2) (fwd 55)] true.
Definition again3 := OpUpdate [bet (ka 1) (kl 1) (fwd (-5)); bet (ka 1) (kb 1) (fwd 100); bet (kc 1) (kl 2) (fwd (-5))] [] true.
Definition with_c : list (op O1) := [start3_a; start_b; start3_c; mixed3; seen3; again3; OpIgnore 99].
Definition only_ab : list (op O1) := [start3_a; start_b; OpForce [] []; only3; OpRemovePriors 98 true; OpUpdate [bet (ka 1) (kb 1) (fwd 100)] [] true; OpTempClear].
Definition only_al : list (op O1) := [start3_a; OpTempClear; OpTempClear; OpTempClear; lm_first; lm_again 1 (-5); OpTempClear].

Example C74_two_robots_example :
  same_share [108%N] (fun c => (c =? 97) || (c =? 98))%N (between_robots [108%N] 97 98) (fun k => (chr k =? 97) || (chr k =? 98))%N with_c only_ab /\
  (starts_fresh [108%N] 97 with_c /\ starts_fresh [108%N] 98 with_c /\ starts_fresh [108%N] 97 only_ab /\ starts_fresh [108%N] 98 only_ab) /\
  (exists s rs, run C1 W1 with_c (solver_init true) = Ok s rs /\ length (graph_lcs C1 with_c (97, 98)%N (s_nfg s)) = 2) /\
  (exists s rs, run C1 (moving 3 gp_id) only_ab (solver_init true) = Ok s rs /\ length (graph_lcs C1 only_ab (97, 98)%N (s_nfg s)) = 2).
Proof.
  split; [repeat constructor|]. split; [split; [|split; [|split]]; apply fresh_check; vm_compute; reflexivity|].
  split; apply run_check; vm_compute; reflexivity.
Qed.

Example C74_landmark_example :
  sp_landmark (c_special C1) (kl 1) = true /\
  same_share [108%N] (fun c => c =? 97)%N (sights [108%N] (kl 1)) (fun k => (chr k =? 97) || (k =? kl 1))%N with_c only_al /\
  seen_by [108%N] (fun c => c =? 97)%N (kl 1) with_c /\
  (starts_fresh [108%N] 97 with_c /\ starts_fresh [108%N] 97 only_al) /\
  (exists s rs, run C1 W1 with_c (solver_init true) = Ok s rs /\ length (graph_lms C1 with_c (kl 1) (s_nfg s)) = 2) /\
  (exists s rs, run C1 W1 only_al (solver_init true) = Ok s rs /\ length (graph_lms C1 only_al (kl 1) (s_nfg s)) = 2).
Proof.
  split; [vm_compute; reflexivity|]. split; [repeat constructor|]. split; [apply seen_check; vm_compute; reflexivity|]. split; [split; apply fresh_check; vm_compute; reflexivity|].
  split; apply run_check; vm_compute; reflexivity.
Qed.

(** Both modes, with a closure taken back in the middle: by its robots in one history, as the latest in the other. *)
Lemma removals_check {O} C (W W' : soracles O) id (h h' : list (op O)) :
  forallb (fun n => Bool.eqb (match nth_error h n with Some o => takes_back C W id (firstn n h) o | None => false end)
                             (match nth_error h' n with Some o => takes_back C W' id (firstn n h') o | None => false end)) (seq 0 (length h)) = true ->
  same_removals C W W' id h h'.
Proof.
  intros H h1 o h2 h1' o' h2' E E' L. rewrite forallb_forall in H. specialize (H (length h1)).
  assert (X : forall (g1 : list (op O)) x g2, nth_error (g1 ++ x :: g2) (length g1) = Some x /\ firstn (length g1) (g1 ++ x :: g2) = g1).
  { intros g1 x g2. split; [rewrite nth_error_app2, Nat.sub_diag by auto; auto|]. rewrite firstn_app, Nat.sub_diag, firstn_all, app_nil_r. auto. }
  rewrite E, E' in H. destruct (X h1 o h2) as (X1 & X2). rewrite X1, X2, L in H. destruct (X h1' o' h2') as (Y1 & Y2). rewrite Y1, Y2 in H.
  apply Bool.eqb_prop. apply H. apply in_seq. rewrite app_length. cbn. lia.
Qed.
Definition C1_inc : config := Cfg [108%N] true true true false true false false true false false.
Definition back_c : list (op O1) := [start3_a; start_b; start3_c; mixed3; seen3; again3; OpIgnore 99; OpRemoveId 97 98; OpUpdate [bet (ka 1) (kb 1) (fwd 100); bet (kc 0) (kb 1) (fwd 60)] [] true].
Definition back_ab : list (op O1) := [start3_a; start_b; OpForce [] []; only3; OpRemovePriors 98 true; OpUpdate [bet (ka 1) (kb 1) (fwd 100)] [] true; OpTempClear;
  OpRemoveLast; OpUpdate [bet (ka 1) (kb 1) (fwd 100)] [] true].
Example C74_removals_example :
  same_share [108%N] (fun c => (c =? 97) || (c =? 98))%N (between_robots [108%N] 97 98) (fun k => (chr k =? 97) || (chr k =? 98))%N back_c back_ab /\
  (starts_fresh [108%N] 97 back_c /\ starts_fresh [108%N] 98 back_c /\ starts_fresh [108%N] 97 back_ab /\ starts_fresh [108%N] 98 back_ab) /\
  (forall C, C = C1 \/ C = C1_inc ->
    same_removals C W1 (moving 3 gp_id) (97, 98)%N back_c back_ab /\ (records_sound C W1 back_c /\ records_sound C (moving 3 gp_id) back_ab) /\
    (exists s rs, run C W1 back_c (solver_init true) = Ok s rs /\ length (graph_lcs C back_c (97, 98)%N (s_nfg s)) = 2) /\
    (exists s rs, run C (moving 3 gp_id) back_ab (solver_init true) = Ok s rs /\ length (graph_lcs C back_ab (97, 98)%N (s_nfg s)) = 2)).
Proof.
  split; [repeat constructor|]. split; [split; [|split; [|split]]; apply fresh_check; vm_compute; reflexivity|].
  intros C [->| ->].
  all: split; [apply removals_check; vm_compute; reflexivity|].
  all: split; [split; left; intros n a i j; reflexivity|].
  all: split; apply run_check; vm_compute; reflexivity.
Qed.
