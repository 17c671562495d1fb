(** * No undefined behaviour *)
From Verif Require Import Prelude Num Keys KMap UMap Geometry Factors Clique CliqueSpec CliqueHeu Pcm Solver ValuesProofs
  PcmSpec PcmProofs PcmInv PcmStore HistSpec StoreSpec SolverProofs HistProofs GraphProofs UpdateProofs StoreProofs LiveProofs.
Set Implicit Arguments.
Local Open Scope nat_scope.

Section Safe.
Variable O : tops.
Variable C : config.
Variable W : soracles O.
Notation bf := (bf O).
Notation factor := (factor O).
Notation values := (values O).
Notation graph_t := (graph_t O).
Notation T := (t_T O).
Notation pcm := (pcm O).
Notation meas := (meas O).
Notation sp := (c_special C).
Notation op := (op O).
Notation solver := (solver O).
Notation start := (@solver_init O true).
Notation lc_get := (uget oid_eqb (@meas_default O)).
Notation lm_get := (uget N.eqb (@meas_default O)).

Notation decent := (@StoreSpec.decent O C).
Notation tested := (@StoreSpec.tested O).

Definition good_pair (n : nat) (m : meas) : Prop :=
  me_factors m <> [] /\ Forall tested (me_factors m) /\ length (me_factors m) <= n /\
  (if c_loop_check C then m_rows (me_adj m) = length (me_factors m) /\ m_cols (me_adj m) = length (me_factors m)
   else m_rows (me_adj m) = 1 /\ m_cols (me_adj m) = 1).
Definition good_lm (l : key) (m : meas) : Prop :=
  me_factors m <> [] /\ Forall decent (me_factors m) /\ Forall (fun b => b_from b <> l) (me_factors m) /\
  m_rows (me_adj m) = length (me_factors m) /\ m_cols (me_adj m) = length (me_factors m).
Record wf (n : nat) (p : pcm) : Prop := {
  wf_lcs : Forall (fun kv : obsid * meas => good_pair n (snd kv)) (p_lcs p);
  wf_lms : Forall (fun kv : key * meas => good_lm (fst kv) (snd kv)) (p_lms p) }.

Lemma good_pair_mono n n' m : n <= n' -> good_pair n m -> good_pair n' m.
Proof. intros H (A & B & D & E). split; [auto|]. split; [auto|]. split; [lia|auto]. Qed.
Lemma wf_mono n n' p : n <= n' -> wf n p -> wf n' p.
Proof. intros H [A B]. split; auto. eapply Forall_impl; [|exact A]. intros kv. apply good_pair_mono; auto. Qed.
Lemma wf_frame n (p p' : pcm) : p_lcs p' = p_lcs p -> p_lms p' = p_lms p -> wf n p -> wf n p'.
Proof. intros H1 H2 [A B]. split; rewrite ?H1, ?H2; auto. Qed.

Lemma wf_lc_get n p id : wf n p -> lc_find id (p_lcs p) = None \/ good_pair n (lc_get id (p_lcs p)).
Proof.
  intros [A _]. unfold uget. destruct (lc_find id (p_lcs p)) as [m|] eqn:E; auto. right.
  apply ufind_In in E. destruct E as (k & _ & Hin). rewrite Forall_forall in A. apply (A _ Hin).
Qed.
Lemma wf_lm_get n p l : wf n p -> lm_get l (p_lms p) = meas_default \/ good_lm l (lm_get l (p_lms p)).
Proof.
  intros [_ B]. unfold uget. destruct (ufind N.eqb l (p_lms p)) as [m|] eqn:E; auto. right.
  apply ufind_In in E. destruct E as (k & Hk & Hin). apply N.eqb_eq in Hk. subst k. rewrite Forall_forall in B. apply (B _ Hin).
Qed.

(** ** The tests *)
Lemma loops_total (p : pcm) f1 f2 : tested f1 -> tested f2 -> exists r, are_loops_consistent C p f1 f2 = Val r.
Proof.
  intros H1 H2. unfold are_loops_consistent, StoreSpec.tested in *. destruct (negb (c_loop_check C)); [eauto|].
  destruct (t_of O f1); [|congruence]. destruct (t_of O f2); [|congruence].
  destruct (if (chr (b_from f1) =? chr (b_from f2))%N then (b_from f2, b_to f2) else (b_to f2, b_from f2)) as [c d].
  destruct (traj_between p (chr (b_from f1)) (b_from f1) c) as [t1 p1].
  destruct (traj_between p1 (chr (b_to f1)) (b_to f1) d) as [t2 p2]. eauto.
Qed.

Lemma lc_bits_total fs new : tested new -> forall (p : pcm) bits, Forall tested fs -> exists r, lc_bits C fs new p bits = Val r.
Proof.
  intro Hn. induction fs as [|f fs IH]; intros p bits Hf; cbn [lc_bits]; [eauto|]. inversion Hf; subst.
  destruct (loops_total p H1 Hn) as [[r p'] ->]. cbn [rbind]. auto.
Qed.

Lemma lm_bits_total l fs new : decent new -> b_from new <> l -> forall (p : pcm) bits, Forall decent fs -> Forall (fun b => b_from b <> l) fs ->
  exists r, lm_bits l fs new p bits = Val r.
Proof.
  unfold StoreSpec.decent, StoreSpec.tested. intros [Hn _] Hl. induction fs as [|f fs IH]; intros p bits Hf Hg; cbn [lm_bits]; [eauto|]. inversion Hf; inversion Hg; subst.
  destruct H1 as [Hf1 _]. apply N.eqb_neq in H5. apply N.eqb_neq in Hl. rewrite H5, Hl. cbn [orb].
  destruct (t_of O f); [|congruence]. destruct (t_of O new); [|congruence].
  destruct (traj_between p (chr (b_from f)) (b_from f) (b_from new)) as [x p']. apply IH; auto.
Qed.

Lemma decent_not_landmark b : decent b -> sp_lmk C b = true -> b_from b <> sp_landmark_key sp b.
Proof.
  intros [_ H] L. specialize (H L). unfold sp_landmark_key. rewrite H. intro E. unfold sp_lmk in L. rewrite H in L. cbn in L.
  rewrite <- E in L. congruence.
Qed.

Lemma set_trajs_frame (p : pcm) tr : p_lcs (set_trajs p tr) = p_lcs p /\ p_lms (set_trajs p tr) = p_lms p.
Proof. auto. Qed.

Lemma odom_total (p : pcm) b : tested b -> exists ok tr, is_odom_consistent C p b = Val (ok, set_trajs p tr).
Proof.
  unfold StoreSpec.tested. intro H. unfold is_odom_consistent. destruct (negb (c_odom_check C)).
  - exists true, (p_trajs p). destruct p; auto.
  - destruct (traj_between_spec p (chr (b_from b)) (b_from b) (b_to b)) as (tr & -> & _).
    destruct (t_of O b); [|congruence]. eauto.
Qed.

Lemma increment_adj_total id b old (p : pcm) n : lc_get id (p_lcs p) = meas_add old b -> tested b ->
  (me_factors old = [] \/ good_pair n old) -> c_loop_check C = true -> exists p', increment_adj C id b p = Val p'.
Proof.
  intros Hg Hb Ho HC. unfold increment_adj. rewrite Hg. unfold meas_add. cbn [me_factors me_adj me_cons].
  rewrite app_length. cbn [length]. destruct (length (me_factors old) + 1 <=? 1) eqn:E; [eauto|]. apply Nat.leb_gt in E.
  destruct Ho as [Ho|(_ & Hd & _ & HD)]; [rewrite Ho in E; cbn in E; lia|]. rewrite HC in HD. destruct HD as [D1 D2].
  replace (length (me_factors old) + 1 - 1) with (length (me_factors old)) by lia.
  assert (dims_are (me_adj old) (length (me_factors old)) = true) as -> by (apply dims_are_spec; auto).
  rewrite firstn_app, firstn_all, Nat.sub_diag. cbn [firstn]. rewrite app_nil_r.
  destruct (lc_bits_total Hb p [] Hd) as [[bits p'] ->]. cbn [rbind]. eauto.
Qed.

Lemma increment_lm_total l b old (p : pcm) : lm_get l (p_lms p) = meas_add old b -> decent b -> b_from b <> l ->
  (me_factors old = [] \/ good_lm l old) -> exists p', increment_landmark_adj l b p = Val p'.
Proof.
  intros Hg Hb Hl Ho. unfold increment_landmark_adj. rewrite Hg. unfold meas_add. cbn [me_factors me_adj me_cons].
  rewrite app_length. cbn [length]. destruct (length (me_factors old) + 1 <=? 1) eqn:E; [eauto|]. apply Nat.leb_gt in E.
  destruct Ho as [Ho|(_ & Hd & Hn & D1 & D2)]; [rewrite Ho in E; cbn in E; lia|].
  replace (length (me_factors old) + 1 - 1) with (length (me_factors old)) by lia.
  assert (dims_are (me_adj old) (length (me_factors old)) = true) as -> by (apply dims_are_spec; auto).
  rewrite firstn_app, firstn_all, Nat.sub_diag. cbn [firstn]. rewrite app_nil_r.
  destruct (lm_bits_total Hb Hl p [] Hd Hn) as [[[bits|] p'] ->]; cbn [rbind]; eauto.
Qed.

Lemma parse_one_total vals b (p : pcm) nn n : wf n p -> decent b -> exists r, parse_one C vals b (p, nn) = Val r.
Proof.
  intros HW Hb. unfold parse_one. destruct (negb (kmem (b_from b) vals) || negb (kmem (b_to b) vals)); [eauto|].
  rewrite !is_special_spec, landmark_key_spec. destruct (sp_landmark sp (b_from b) || sp_landmark sp (b_to b)) eqn:ES.
  - set (l := sp_landmark_key sp b).
    match goal with |- context [increment_landmark_adj l b ?q] => destruct (@increment_lm_total l b (lm_get l (p_lms p)) q) as [p' ->] end;
      cbn [rbind]; eauto.
    + cbn [p_lms set_total set_lms]. rewrite n_get_set, N.eqb_refl. auto.
    + apply decent_not_landmark; auto.
    + destruct (wf_lm_get l HW) as [->|G]; auto.
  - assert (G : forall q : pcm, p_lcs q = p_lcs p -> exists r,
       (let id := (chr (b_from b), chr (b_to b)) in
        let p2 := set_lcs q (lc_set id (meas_add (lc_get id (p_lcs q)) b) (p_lcs q)) in
        let p3 := set_total (set_order p2 (p_order p2 ++ [id])) (S (p_total p2)) in
        let* p4 := (if c_loop_check C then increment_adj C id b p3 else Val p3) in Val (p4, nn_incr id nn)) = Val r).
    { intros q Hq. cbv zeta. destruct (c_loop_check C) eqn:HC; cbn [rbind]; eauto.
      match goal with |- context [increment_adj C ?i b ?q'] => destruct (@increment_adj_total i b (lc_get i (p_lcs q)) q' n) as [p' ->] end;
        cbn [rbind]; eauto.
      - cbn [p_lcs set_total set_order set_lcs]. rewrite oid_get_set, oid_eqb_refl. auto.
      - apply Hb.
      - rewrite Hq. destruct (wf_lc_get (chr (b_from b), chr (b_to b)) HW) as [Z|G]; auto.
        left. unfold uget. rewrite Z. auto. }
    destruct (chr (b_from b) =? chr (b_to b))%N.
    + destruct (odom_total p (proj1 Hb)) as (ok & tr & ->). cbn [rbind]. destruct ok; [apply G; auto|eauto].
    + cbn [rbind]. apply G; auto.
Qed.

Lemma grow_dims m bits n : m_rows (grow_mat m bits n) = S n /\ m_cols (grow_mat m bits n) = S n.
Proof. auto. Qed.

Lemma parsed_wf vals b (p p' : pcm) o n : parsed C vals b p p' o -> decent b -> wf n p -> wf (S n) p'.
Proof.
  intros HP Hb HW. pose proof (wf_mono (Nat.le_succ_diag_r n) HW) as HW'.
  inversion HP as [Hm|tr K1 K2 Hl Hc Ho Ht|adj tr K1 K2 Hl Hg Ht|adj tr (K1 & K2 & Hl & Ha) Hg Ht]; subst; clear HP.
  - auto.
  - eapply wf_frame; [| |exact HW']; auto.
  - set (l := sp_landmark_key sp b) in *.
    assert (Hbl : b_from b <> l) by (apply decent_not_landmark; auto).
    split; unfold store_lm; cbn [p_lcs p_lms set_trajs set_total set_lms]; [apply HW'|].
    apply Forall_uset; [apply HW|]. intros k' Hk.
    assert (k' = l) as -> by (destruct Hk as [Hk| ->]; auto; apply N.eqb_eq in Hk; auto).
    fold l in Hg. cbn [fst snd]. unfold good_lm. cbn [me_factors me_adj]. rewrite app_length. cbn [length].
    destruct Hg as [[H0 ->]|(H0 & D1 & D2 & Hg)].
    + fold l. destruct (me_factors (lm_get l (p_lms p))) eqn:EF; [|discriminate]. cbn.
      split; [discriminate|]. split; [auto|]. split; [auto|]. auto.
    + destruct (wf_lm_get l HW) as [Z|(G1 & G2 & G3 & G4 & G5)]; [rewrite Z in H0; cbn in H0; lia|]. fold l.
      split; [intro X; destruct (me_factors (lm_get l (p_lms p))); discriminate|].
      split; [apply Forall_app; auto|]. split; [apply Forall_app; auto|].
      destruct Hg as [(-> & f & Hf & E)|(bits & -> & _)]; [|cbn; lia].
      exfalso. apply in_app_or in Hf. destruct Hf as [Hf|[<-|[]]]; [|auto]. rewrite Forall_forall in G3. apply (G3 _ Hf); auto.
  - assert (Hbt : tested b) by apply Hb. split; unfold store_lc; cbn [p_lcs p_lms set_trajs set_total set_order set_lcs]; [|apply HW].
    apply Forall_uset; [apply HW'|]. intros k' _. cbn [snd]. unfold good_pair. cbn [me_factors me_adj]. rewrite app_length. cbn [length].
    destruct (wf_lc_get (pair_of b) HW) as [Z|(G1 & G2 & G3 & G4)].
    + unfold uget in *. rewrite Z in *. cbn [meas_default me_factors me_adj length app] in *.
      split; [discriminate|]. split; [auto|]. split; [lia|]. destruct (c_loop_check C).
      * destruct Hg as [[_ ->]|(X & _)]; [auto|cbn in X; lia].
      * subst adj. auto.
    + split; [intro X; destruct (me_factors (lc_get (pair_of b) (p_lcs p))); discriminate|].
      split; [apply Forall_app; auto|]. split; [lia|]. destruct (c_loop_check C).
      * destruct Hg as [[X _]|(_ & _ & _ & bits & -> & _)].
        { destruct (me_factors (lc_get (pair_of b) (p_lcs p))); [congruence|discriminate]. }
        cbn. lia.
      * subst adj. auto.
Qed.

Definition nn_le (n : nat) (nn : numnew) : Prop := Forall (fun kv : obsid * nat => snd kv <= n) nn.

Lemma nn_incr_le id nn n : nn_le n nn -> nn_le (S n) (nn_incr id nn).
Proof.
  intro H. unfold nn_incr. destruct (lc_find id nn) as [c|] eqn:E.
  - apply Forall_uset.
    + eapply Forall_impl; [|exact H]. cbn. intros. lia.
    + intros k' _. cbn. apply ufind_In in E. destruct E as (k & _ & Hin). unfold nn_le in H. rewrite Forall_forall in H.
      specialize (H _ Hin). cbn in H. lia.
  - apply Forall_app. split; [eapply Forall_impl; [|exact H]; cbn; intros; lia|]. constructor; auto. cbn. lia.
Qed.

Lemma parse_all_total vals bs : Forall decent bs -> forall (p : pcm) nn n k, wf n p -> has_all nn (p_lcs p) -> nn_le k nn ->
  exists p' nn', rfold (parse_one C vals) bs (p, nn) = Val (p', nn') /\ wf (length bs + n) p' /\ has_all nn' (p_lcs p') /\
    nn_le (length bs + k) nn' /\ p_robots p' = p_robots p.
Proof.
  intro Hd. induction Hd as [|b bs Hb Hd IH]; intros p nn n k HW HA HN; cbn [rfold length plus].
  - exists p, nn. auto.
  - destruct (parse_one_total vals nn HW Hb) as [[p1 nn1] E]. rewrite E. cbn [rbind].
    apply parse_one_inv in E. destruct E as (o & HP & ->).
    assert (HA1 : has_all match o with Some id => nn_incr id nn | None => nn end (p_lcs p1)).
    { inversion HP; subst; auto.
      intros id m Hin. unfold store_lc. cbn [p_lcs set_trajs set_total set_order set_lcs]. rewrite oid_find_set.
      destruct (oid_eqb id (pair_of b)) eqn:E; eauto. apply nn_incr_In in Hin. destruct Hin as [Hin|[m' Hin]]; [|eauto].
      rewrite oid_eqb_sym in Hin. congruence. }
    destruct (IH p1 _ (S n) (S k) (parsed_wf HP Hb HW) HA1) as (p' & nn' & E2 & A1 & A2 & A3 & A4).
    { destruct o; [apply nn_incr_le; auto|]. eapply Forall_impl; [|exact HN]. cbn. intros. lia. }
    exists p', nn'. split; auto. split; [eapply wf_mono; [|exact A1]; lia|]. split; auto. split.
    + eapply Forall_impl; [|exact A3]. cbn. intros. lia.
    + rewrite A4. inversion HP; subst; auto.
Qed.

(** ** Selection *)
Lemma select_total (fs : list bf) k data : k <= length data -> (forall x, In x (firstn k data) -> x < length fs) ->
  exists cs, select fs (Z.of_nat k) data = Val cs.
Proof.
  intros Hk Hx. unfold select. replace (Z.of_nat k <? 0)%Z with false by (symmetry; apply Z.ltb_ge; lia). rewrite Nat2Z.id.
  revert Hk Hx. induction k as [|k IH]; intros Hk Hx; [cbn; eauto|].
  rewrite seq_S, rfold_app. cbn [plus]. destruct IH as [cs E]; [lia| |].
  { intros x Hin. apply Hx. clear -Hin. revert data Hin. induction k as [|k IH]; intros [|d data] Hin; cbn in Hin; try contradiction.
    destruct Hin as [->|Hin]; [left; auto|right; apply IH; auto]. }
  rewrite E. cbn [rbind rfold].
  destruct (nth_error data k) as [ix|] eqn:E1; [|apply nth_error_None in E1; lia].
  unfold vget at 1. rewrite E1. cbn [rbind].
  assert (Hix : ix < length fs).
  { apply Hx. assert (In ix (firstn (S k) data)); auto. clear -E1. revert data E1. induction k; intros [|d data] E; cbn in *; try discriminate.
    - injection E; auto.
    - right. apply IHk; auto. }
  unfold vget. destruct (nth_error fs ix) as [f|] eqn:E2; [|apply nth_error_None in E2; lia]. cbn [rbind]. eauto.
Qed.

Lemma heu_total (m : meas) : 0 < m_rows (me_adj m) -> m_rows (me_adj m) <= length (me_factors m) -> exists m', heu_inliers m = Val m'.
Proof.
  intros H1 H2. unfold heu_inliers. destruct (find_heu_bounds (me_adj m)) as [_ B].
  destruct (B H1) as (k & data & -> & _ & B2 & B3). cbn [rbind].
  destruct (@select_total (me_factors m) k data B2) as [cs ->]; [|cbn [rbind]; eauto].
  intros x Hx. specialize (B3 x Hx). lia.
Qed.

Lemma length_pos {A} (l : list A) : l <> [] -> 0 < length l.
Proof. destruct l; [congruence|cbn; lia]. Qed.

Lemma pair_total n (m : meas) : good_pair n m -> exists m', pair_inliers C m = Val m'.
Proof.
  intros (G1 & _ & _ & G4). unfold pair_inliers. destruct (c_loop_check C); [|eauto].
  apply length_pos in G1. apply heu_total; lia.
Qed.
Lemma lm_total l (m : meas) : good_lm l m -> exists m', heu_inliers m = Val m'.
Proof. intros (G1 & _ & _ & G4 & _). apply length_pos in G1. apply heu_total; lia. Qed.

Lemma inc_total n nw (m : meas) : good_pair n m -> (Z.of_nat n < size_t_mod)%Z -> (Z.of_nat nw < size_t_mod)%Z ->
  exists m', inc_inliers nw m = Val m'.
Proof.
  intros (G1 & _ & G3 & G4) Hn Hnw. apply length_pos in G1. unfold inc_inliers.
  assert (HR : m_rows (me_adj m) <= length (me_factors m)) by (destruct (c_loop_check C); lia).
  destruct (Nat.le_gt_cases nw (m_rows (me_adj m))) as [L|L].
  - destruct (@find_inc_ok (me_adj m) nw (length (me_cons m))) as [[d ->]|(picks & d & c & -> & _ & _ & _ & _ & (S1 & c0 & l & S2 & S3 & S4) & _)]; auto; try lia.
    + cbn [rbind]. rewrite Z.eqb_refl. eauto.
    + cbn [rbind]. destruct (Z.of_nat (length picks) =? 0)%Z; [eauto|].
      destruct (@select_total (me_factors m) (length picks) d S1) as [cs ->]; [|cbn [rbind]; eauto].
      intros x Hx. rewrite S2 in Hx. destruct Hx as [<-|Hx]; [lia|]. apply S4 in Hx. destruct Hx as (_ & Hx & _). lia.
  - rewrite find_inc_wrap by auto. cbn [rbind]. rewrite Z.eqb_refl. eauto.
Qed.

Lemma umapM_total {K} (f : meas -> res meas) (m : umap K meas) :
  Forall (fun kv => exists v, f (snd kv) = Val v) m -> exists m', umapM f m = Val m'.
Proof.
  intro H. induction H as [|[k v] m [v' Hv] H [m' IH]]; cbn [umapM]; [eauto|]. cbn [snd] in Hv. rewrite Hv. cbn [rbind].
  rewrite IH. cbn [rbind]. eauto.
Qed.

Lemma lms_total n p : wf n p -> exists m', umapM (heu_inliers (O:=O)) (p_lms p) = Val m'.
Proof.
  intros [_ B]. apply umapM_total. eapply Forall_impl; [|exact B]. intros kv. apply lm_total.
Qed.

Lemma find_inliers_total n p : wf n p -> exists p', find_inliers C p = Val p'.
Proof.
  intros H. unfold find_inliers. destruct (@umapM_total obsid (pair_inliers C) (p_lcs p)) as [lcs ->].
  { eapply Forall_impl; [|apply H]. intros kv. apply pair_total. }
  cbn [rbind]. destruct (lms_total H) as [lms ->]. cbn [rbind]. eauto.
Qed.

Lemma find_inliers_inc_total n nn p : wf n p -> has_all nn (p_lcs p) -> nn_le n nn -> (Z.of_nat n < size_t_mod)%Z ->
  exists p', find_inliers_inc nn p = Val p'.
Proof.
  intros H HA HN Hn. unfold find_inliers_inc.
  assert (G : forall nn lcs, nn_le n nn -> has_all nn lcs -> Forall (fun kv : obsid * meas => good_pair n (snd kv)) lcs ->
    exists lcs', rfold (fun '(id, nw) lcs => let* m' := inc_inliers nw (lc_get id lcs) in Val (lc_set id m' lcs)) nn lcs = Val lcs').
  { clear -Hn. induction nn as [|[id nw] nn IH]; intros lcs HN HA HF; cbn [rfold]; [eauto|].
    inversion HN as [|? ? H1 H2]; subst. cbn [snd] in H1. destruct (HA id nw (or_introl eq_refl)) as [m Hm].
    assert (GM : good_pair n m).
    { apply ufind_In in Hm. destruct Hm as (k & _ & Hin). rewrite Forall_forall in HF. apply (HF _ Hin). }
    unfold uget at 1. rewrite Hm. destruct (@inc_total n nw m) as [m' E]; auto; try lia. rewrite E. cbn [rbind]. apply IH; auto.
    - intros id' n' Hin. rewrite oid_find_set. destruct (oid_eqb id' id); eauto. apply (HA id' n'). right. auto.
    - apply Forall_uset; auto. intros k' _. cbn [snd]. apply inc_inliers_reselected in E. destruct E as (E1 & E2 & _).
      unfold good_pair in *. rewrite E1, E2. auto. }
  destruct (G nn (p_lcs p) HN HA) as [lcs ->]; [apply H|]. cbn [rbind].
  destruct (lms_total H) as [lms ->]. cbn [rbind]. eauto.
Qed.

Lemma wf_selected n p p' : selected p p' -> wf n p -> wf n p'.
Proof.
  intros (E1 & E2 & _) [A B]. split.
  - clear -E1 A. induction E1 as [|a b l l' [H1 (H2 & H3 & _)] H IH]; auto. inversion A; subst. constructor; auto.
    unfold good_pair in *. rewrite H2, H3. auto.
  - clear -E2 B. induction E2 as [|a b l l' [H1 (H2 & H3 & _)] H IH]; auto. inversion B; subst. constructor; auto.
    unfold good_lm in *. rewrite H1, H2, H3. auto.
Qed.

(** ** A call *)
Definition decent_graph (fs : graph_t) : Prop := forall b, In (Some (FBetween b)) fs -> decent b.

Lemma update_odom_safe vals b (p : pcm) n : wf n p -> decent b ->
  match update_odom vals b p with Ok p' _ | Throw p' _ => wf n p' | Undef _ => False end.
Proof.
  unfold StoreSpec.decent, StoreSpec.tested. intros HW [Hb _]. unfold update_odom. destruct (t_of O b); [|congruence].
  destruct (ufind N.eqb (chr (b_to b)) _); cbn [obind].
  - eapply wf_frame; [| |exact HW]; auto.
  - destruct (kfind (b_from b) vals) as [[x|x]|]; cbn [obind]; (eapply wf_frame; [| |exact HW]; auto).
Qed.

Lemma proc_factor_safe nv vals of (p : pcm) acc n : wf n p -> (forall b, of = Some (FBetween b) -> decent b) ->
  match proc_factor C nv vals of p acc with Ok p' _ | Throw p' _ => wf n p' | Undef _ => False end.
Proof.
  intros HW Hd. unfold proc_factor. destruct of as [[b|k x|k t|ks t]|]; auto.
  2-4: cbn [classify]; eapply wf_frame; [| |exact HW]; auto.
  specialize (Hd b eq_refl). rewrite classify_spec. destruct (sp_first sp nv b) eqn:EF.
  - unfold first_landmark. split; cbn [p_lcs p_lms set_total set_lms]; [apply HW|].
    apply Forall_uset; [apply HW|]. intros k' Hk. cbn [fst snd]. rewrite landmark_key_spec in Hk.
    assert (k' = sp_landmark_key sp b) as -> by (destruct Hk as [Hk| ->]; auto; apply N.eqb_eq in Hk; auto).
    unfold good_lm. cbn. split; [discriminate|]. split; auto. split; auto. constructor; auto.
    apply decent_not_landmark; auto. unfold sp_first in EF. apply andb_true_iff in EF. apply EF.
  - destruct (sp_odometry sp nv b).
    + pose proof (update_odom_safe vals HW Hd) as X. destruct (update_odom vals b p); auto.
    + destruct (b_from b =? b_to b)%N; auto.
Qed.

Lemma proc_factors_safe nv vals n fs : decent_graph fs -> forall (p : pcm) acc, wf n p ->
  match proc_factors C nv vals fs p acc with Ok p' _ | Throw p' _ => wf n p' | Undef _ => False end.
Proof.
  induction fs as [|of fs IH]; intros Hd p acc HW; cbn [proc_factors]; auto.
  pose proof (@proc_factor_safe nv vals of p acc n HW) as X.
  destruct (proc_factor C nv vals of p acc) as [p1 acc1| |]; cbn [obind];
    try (apply X; intros b ->; apply Hd; left; auto).
  apply IH; [intros b Hb; apply Hd; right; auto|]. apply X. intros b ->. apply Hd. left. auto.
Qed.

Lemma vupdate_not_undef l u : forall v : values, vupdate_all l v <> Undef u.
Proof.
  induction l as [|[k x] l IH]; intro v; cbn [vupdate_all]; [discriminate|].
  destruct (kfind k v) as [y|]; [destruct (same_type y x); [apply IH|discriminate]|discriminate].
Qed.

Lemma align_rest_not_undef w (p : pcm) r0 u rs : forall v, align_rest w p r0 rs v <> Undef u.
Proof.
  induction rs as [|r rs IH]; intro v; cbn [align_rest]; [discriminate|].
  destruct (align_one w p r0 r v) as [v' x| |u'] eqn:E; cbn [obind]; [apply IH|discriminate|].
  intros _. unfold align_one in E. destruct (lc_find _ _); [|discriminate]. destruct (frame_all _ _ _ _); [|discriminate].
  destruct (w_avg w _); [|discriminate]. destruct (robot_odom_values _ _ _); [|discriminate]. eapply vupdate_not_undef; eauto.
Qed.

Lemma align_not_undef w (p : pcm) v u : align w p v <> Undef u.
Proof.
  unfold align. destruct (p_robots p) as [|r0 rs]; [discriminate|]. destruct (robot_odom_values _ _ _) as [rv|]; [|discriminate].
  destruct (vupdate_all rv v) as [v' x| |u'] eqn:E; cbn [obind]; [apply align_rest_not_undef|discriminate|].
  intros _. eapply vupdate_not_undef; eauto.
Qed.

Lemma betweens_length (g : graph_t) : length (betweens g) <= length g.
Proof. unfold betweens. induction g as [|[[]|] g IH]; cbn; lia. Qed.
Lemma filter_len {A} (F : A -> bool) l : length (filter F l) <= length l.
Proof. induction l as [|x l IH]; cbn; auto. destruct (F x); cbn; lia. Qed.

Notation small := (StoreSpec.small C).

Lemma remove_outliers_safe fs nv (p : pcm) nfg v n : wf n p -> decent_graph fs -> small (length fs + n) ->
  match remove_outliers C (so_pcm W) fs nv (PSt p nfg v) with
  | Ok st _ | Throw st _ => wf (length fs + n) (ps_pcm st) | Undef _ => False end.
Proof.
  intros HW Hd Hs. assert (HW' : wf (length fs + n) p) by (eapply wf_mono; [|exact HW]; lia).
  unfold remove_outliers. cbn [ps_pcm ps_nfg ps_vals].
  destruct (vinsert_all nv v) as [vs []| |u] eqn:EV; auto; [|eapply vinsert_all_not_undef; eauto].
  destruct fs as [|of fs']; [exact HW'|]. set (FS := of :: fs') in *.
  pose proof (proc_factors_safe nv vs (fs := FS) Hd ([], false) HW') as X.
  pose proof (proc_factors_safe nv vs (fs := FS) Hd ([], false) HW) as X'.
  destruct (proc_factors C nv vs FS p ([], false)) as [p1 [lcs opt]| |] eqn:EP; auto.
  apply proc_factors_frame in EP. destruct EP as (_ & _ & _ & _ & _ & _ & _ & _ & P9 & _). cbn [fst app] in P9. subst lcs.
  set (cand := filter (sp_candidate sp nv) (betweens FS)).
  assert (Hcl : length cand <= length FS).
  { unfold cand. eapply Nat.le_trans; [apply filter_len|]. apply betweens_length. }
  assert (Hcd : Forall decent cand).
  { apply Forall_forall. intros b Hb. unfold cand in Hb. apply filter_In in Hb. destruct Hb as [Hb _].
    unfold betweens in Hb. apply in_flat_map in Hb. destruct Hb as ([[b'| | |]|] & H1 & H2); cbn in H2; try tauto.
    destruct H2 as [->|[]]. apply Hd; auto. }
  assert (Y : exists p3 opt', match cand with [] => Val (p1, opt) | _ :: _ =>
      let* '(p2, nn) := parse_all C vs cand p1 in
      let* p3 := (if c_incremental C then find_inliers_inc nn p2 else find_inliers C p2) in Val (p3, true) end = Val (p3, opt') /\
      wf (length FS + n) p3).
  { clearbody cand. destruct cand as [|b0 bs]; [eauto|]. set (L := b0 :: bs) in *.
    destruct (@parse_all_total vs L Hcd p1 [] n 0 X') as (p2 & nn & E2 & A1 & _ & A3 & _).
    { intros id m []. } { constructor. }
    assert (HA : has_all nn (p_lcs p2)).
    { destruct (@parse_all_total vs L Hcd p1 [] n 0 X') as (p2' & nn' & E2' & _ & A2 & _).
      { intros id m []. } { constructor. } rewrite E2 in E2'. injection E2' as <- <-. auto. }
    assert (E2p : parse_all C vs L p1 = Val (p2, nn)) by exact E2. rewrite E2p. cbn [rbind].
    assert (WF2 : wf (length FS + n) p2) by (eapply wf_mono; [|exact A1]; lia).
    destruct (c_incremental C) eqn:EI.
    - destruct (@find_inliers_inc_total (length FS + n) nn p2) as [p3 E3]; auto.
      { eapply Forall_impl; [|exact A3]. intros kv Hkv. cbv beta in *. lia. }
      rewrite E3. cbn [rbind]. exists p3, true. split; auto. eapply wf_selected; [|exact WF2]. eapply find_inliers_inc_selected; eauto.
    - destruct (find_inliers_total WF2) as [p3 E3]. rewrite E3. cbn [rbind]. exists p3, true. split; auto.
      eapply wf_selected; [|exact WF2]. eapply find_inliers_selected; eauto. }
  destruct Y as (p3 & opt' & -> & HW3).
  destruct (c_align C && (1 <? length (p_robots p3))); [|exact HW3].
  set (p4 := set_robots p3 (nsort (p_robots p3))).
  assert (HW4 : wf (length FS + n) p4) by (eapply wf_frame; [| |exact HW3]; auto).
  destruct (align (so_pcm W) p4 vs) as [v' []| |u] eqn:EA; cbn [ps_pcm]; auto. eapply align_not_undef; eauto.
Qed.

(** ** Histories *)

(** Optimisation with GNC and without fixed inliers. *)
Definition room (s : solver) (p : pcm) : Prop := c_bias C = true -> num_odom_special p <= length (s_nfg s).

Lemma graph_of_room w (p : pcm) : num_odom_special p <= length (graph_of w p).
Proof. unfold graph_of, build, num_odom_special. rewrite map_length, !app_length, !map_length. lia. Qed.

Definition keeps_pcm (p : pcm) {A} (x : outcome solver A) : Prop :=
  match x with Ok s _ | Throw s _ => s_pcm s = Some p | Undef _ => False end.

Lemma finish_keeps r (s : solver) p : s_pcm s = Some p -> keeps_pcm p (finish r s).
Proof.
  intro Hp. unfold finish. destruct (update_values r (s_vals s, s_tvals s)) as [[v tv] []|[v tv] e|u] eqn:E.
  - rewrite Hp. exact Hp.
  - exact Hp.
  - exfalso. eapply update_values_not_undef; eauto.
Qed.

Lemma optimize_keeps (s : solver) p : s_pcm s = Some p -> c_gnc C = true -> c_fix C = false -> room s p -> keeps_pcm p (optimize C W s).
Proof.
  intros Hp HG HF HR. unfold optimize.
  destruct (vinsert_all (s_tvals s) (s_vals s)) as [full []|v e|u] eqn:EV; [|exact Hp|exfalso; eapply vinsert_all_not_undef; eauto].
  unfold gnc_branch. rewrite Hp, HG, HF. cbn [andb negb].
  replace (c_bias C && (length (s_nfg s ++ s_tnfg s) <? num_odom_special p)) with false.
  2:{ symmetry. destruct (c_bias C) eqn:EB; auto. cbn. apply Nat.ltb_ge. rewrite app_length. specialize (HR EB). lia. }
  unfold call_opt. destruct (so_opt W _ _); cbn [obind]; [|exact Hp]. apply finish_keeps. exact Hp.
Qed.

Definition safe_out (n : nat) {A} (x : outcome solver A) : Prop :=
  match x with Ok s _ | Throw s _ => exists p, s_pcm s = Some p /\ wf n p | Undef _ => False end.

Lemma keeps_safe n (p : pcm) {A} (x : outcome solver A) : wf n p -> keeps_pcm p x -> safe_out n x.
Proof. intro H. destruct x; cbn; eauto. Qed.

Lemma log_keeps (s : solver) p : s_pcm s = Some p -> keeps_pcm p (log_status C s).
Proof. intro Hp. unfold log_status. destruct (c_log C); [|exact Hp]. rewrite Hp. destruct (g2o_throws _); exact Hp. Qed.

(** Removals that leave a pair in step with its record. *)
Definition removable (k : nat) : Prop := if c_loop_check C then 3 <= k else k = 2.

Lemma remove_id_safe n (p : pcm) id : wf n p ->
  (lc_find id (p_lcs p) = None \/ removable (length (me_factors (lc_get id (p_lcs p))))) ->
  exists p' e, pcm_remove_last_id (so_pcm W) id p = Val (p', e) /\ wf n p' /\ num_odom_special p' = num_odom_special p /\
    (e = None -> p' = p).
Proof.
  intros HW H. unfold pcm_remove_last_id. destruct (lc_find id (p_lcs p)) as [m|] eqn:E.
  2:{ exists p, None. split; auto. }
  destruct H as [H|H]; [discriminate|]. unfold uget in H. rewrite E in H.
  assert (GM : good_pair n m).
  { apply ufind_In in E. destruct E as (k & _ & Hin). destruct HW as [A _]. rewrite Forall_forall in A. apply (A _ Hin). }
  pose proof GM as (G1 & G2 & G3 & G4). unfold removable in H.
  destruct (rev (me_factors m)) as [|x rest] eqn:ER.
  { exfalso. apply G1. rewrite <- (rev_involutive (me_factors m)), ER. auto. }
  assert (HF : me_factors m = rev rest ++ [x]) by (rewrite <- (rev_involutive (me_factors m)), ER; reflexivity).
  rewrite HF, removelast_last. rewrite HF in *. rewrite app_length in *. cbn [length] in *.
  apply Forall_app in G2. destruct G2 as [G2 _].
  assert (SET : forall m', good_pair n m' -> wf n (set_lcs p (lc_set id m' (p_lcs p)))).
  { intros m' G. split; cbn [p_lcs p_lms set_lcs]; [apply Forall_uset; [apply HW|auto]|apply HW]. }
  destruct (c_loop_check C) eqn:HC.
  - destruct G4 as [D1 D2]. replace (m_rows (me_adj m) <=? 0) with false by (symmetry; apply Nat.leb_gt; lia).
    replace (length (rev rest) <? 2) with false by (symmetry; apply Nat.ltb_ge; lia).
    replace (m_cols (me_adj m) =? m_rows (me_adj m)) with true by (symmetry; apply Nat.eqb_eq; lia).
    destruct (@heu_total (Meas (rev rest) [] (shrink_mat (so_pcm W) (me_adj m)))) as [m' E']; cbn; try lia.
    rewrite E'. cbn [rbind]. exists (set_lcs p (lc_set id m' (p_lcs p))), (Some (edge_of x)).
    split; [auto|]. split; [|split; [auto|discriminate]]. apply SET. apply heu_inliers_reselected in E'.
    destruct E' as (E1 & E2 & _). unfold good_pair. rewrite E1, E2, HC. cbn. split.
    { intro X. rewrite X in H. cbn in H. lia. }
    split; auto. lia.
  - destruct G4 as [D1 D2]. rewrite D1. cbn [Nat.leb]. replace (length (rev rest) <? 2) with true by (symmetry; apply Nat.ltb_lt; lia).
    cbn [rbind]. eexists _, (Some (edge_of x)).
    split; [reflexivity|]. split; [|split; [auto|discriminate]]. apply SET. unfold good_pair. cbn. rewrite HC. split.
    { intro X. rewrite X in H. cbn in H. lia. }
    split; auto. lia.
Qed.

Definition removal_fine (o : op) (p : pcm) : Prop :=
  match o with
  | OpRemoveId a b => lc_find (a, b) (p_lcs p) = None \/ removable (length (me_factors (lc_get (a, b) (p_lcs p))))
  | OpRemoveLast =>
      match rev (p_order p) with
      | [] => True
      | id :: _ => lc_find id (p_lcs p) = None \/ removable (length (me_factors (lc_get id (p_lcs p))))
      end
  | _ => True
  end.

Definition given (o : op) : graph_t := match call_of o with Some (fs, _) => fs | None => [] end.

Lemma ingest_safe fs vs (s : solver) p n : s_pcm s = Some p -> wf n p -> decent_graph fs -> small (length fs + n) -> room s p ->
  match ingest C W fs vs s with
  | Ok s' _ => exists p', s_pcm s' = Some p' /\ wf (length fs + n) p' /\ room s' p'
  | Throw s' _ => exists p', s_pcm s' = Some p' /\ wf (length fs + n) p' | Undef _ => False end.
Proof.
  intros Hp HW Hd Hs HR. unfold ingest, run_pcm. rewrite Hp.
  pose proof (@remove_outliers_safe fs vs p (s_nfg s) (s_vals s) n HW Hd Hs) as X.
  destruct (remove_outliers C (so_pcm W) fs vs (PSt p (s_nfg s) (s_vals s))) as [[p' g v] b|[p' g v] e|u] eqn:E; cbn [ps_pcm] in X; auto.
  - exists p'. split; auto. split; auto. apply remove_outliers_inv in E. cbn [ps_pcm ps_nfg ps_vals] in E.
    destruct E as (v0 & u & q & _ & HQ & E1 & E2 & E3 & E4). unfold room. intro HB. cbn [s_nfg set_pnv].
    destruct fs as [|of fs'].
    + specialize (E1 eq_refl). inversion HQ; subst; try congruence. injection E1 as -> -> ->. apply HR; auto.
    + rewrite E2 by discriminate. assert (Z : num_odom_special p' = num_odom_special q); [|rewrite Z; apply graph_of_room].
      destruct (c_align C).
      * destruct (E4 eq_refl) as [[-> _]|(_ & _ & -> & _)]; auto.
      * specialize (E3 eq_refl). injection E3 as -> _. auto.
  - exists p'. split; auto.
Qed.

Lemma lift_safe (s : solver) p n (x : res (pcm * option (key * key))) : s_pcm s = Some p -> room s p ->
  (exists p' e, x = Val (p', e) /\ wf n p' /\ num_odom_special p' = num_odom_special p) ->
  exists s' e p', lift_removal W s x = Ok s' e /\ s_pcm s' = Some p' /\ wf n p' /\ room s' p'.
Proof.
  intros Hp HR (p' & e & -> & HW & HN). destruct e as [e|]; cbn [lift_removal].
  - eexists _, _, p'. split; [reflexivity|]. split; auto. split; auto. intros _. apply graph_of_room.
  - eexists _, _, p'. split; [reflexivity|]. split; auto. split; auto. intro HB. rewrite HN. exact (HR HB).
Qed.

Lemma step_safe o (s : solver) p n : s_pcm s = Some p -> wf n p -> decent_graph (given o) -> small (length (given o) + n) ->
  room s p -> removal_fine o p -> c_gnc C = true -> c_fix C = false -> safe_out (length (given o) + n) (step C W o s).
Proof.
  intros Hp HW Hd Hs HR HF HG HX.
  assert (KS : forall (s1 : solver) p1 m, s_pcm s1 = Some p1 -> wf m p1 -> room s1 p1 ->
     safe_out m (optimize C W s1)).
  { intros s1 p1 m A B D. eapply keeps_safe; eauto. apply optimize_keeps; auto. }
  assert (NR : forall m x, safe_out m x -> safe_out m (no_ret x)).
  { intros m x. unfold no_ret. destruct x; cbn; auto. }
  assert (RM : forall x, (exists p' e, x = Val (p', e) /\ wf n p' /\ num_odom_special p' = num_odom_special p) ->
     safe_out n (edge_ret (obind (lift_removal W s x) (fun s1 e => obind (optimize C W s1) (fun s2 _ => Ok s2 e))))).
  { intros x Hx. destruct (lift_safe Hp HR Hx) as (s1 & e & p1 & -> & A & B & D). cbn [obind].
    pose proof (KS _ _ _ A B D) as Z. destruct (optimize C W s1); cbn; auto. }
  assert (PC : forall q, wf n q -> safe_out n (optimize C W (set_pnv s (Some q) (graph_of (so_pcm W) q) (s_vals s)))).
  { intros q Hq. eapply KS; [reflexivity|auto|]. intros _. apply graph_of_room. }
  destruct o as [fs vs opt|fs vs|c opt|a b| |c|c|fs vs|fs vs|]; cbn [given call_of length plus] in *; cbn [step].
  - apply NR. unfold update. pose proof (@ingest_safe fs vs s p n Hp HW Hd Hs HR) as X.
    destruct (ingest C W fs vs s) as [s1 b| |]; cbn [obind]; auto. destruct X as (p1 & A & B & D).
    assert (Y : keeps_pcm p1 (if b && opt then optimize C W s1 else Ok s1 tt)).
    { destruct (b && opt); [apply optimize_keeps; auto|exact A]. }
    destruct (if b && opt then optimize C W s1 else Ok s1 tt) as [s2 []| |]; cbn [obind]; [|cbn in *; eauto|auto].
    destruct opt; [|cbn in *; eauto]. eapply keeps_safe; eauto. apply log_keeps; auto.
  - apply NR. unfold force_update. pose proof (@ingest_safe fs vs s p n Hp HW Hd Hs HR) as X.
    destruct (ingest C W fs vs s) as [s1 b| |]; cbn [obind]; auto. destruct X as (p1 & A & B & D).
    pose proof (@optimize_keeps s1 p1 A HG HX D) as Y.
    destruct (optimize C W s1) as [s2 []| |]; cbn [obind]; [|cbn in *; eauto|auto]. eapply keeps_safe; eauto. apply log_keeps; auto.
  - apply NR. unfold remove_priors. rewrite Hp. assert (HW' : wf n (pcm_remove_priors c p)) by (eapply wf_frame; [| |exact HW]; auto).
    destruct opt; [apply PC; auto|]. cbn. eauto.
  - unfold remove_last_id. rewrite Hp. apply RM. destruct (@remove_id_safe n p (a, b) HW HF) as (p' & e & A & B & D & _). eauto.
  - unfold remove_last. rewrite Hp. apply RM. unfold pcm_remove_last. destruct (rev (p_order p)) as [|id l] eqn:E.
    + exists p, None. auto.
    + cbn [removal_fine] in HF. rewrite E in HF.
      destruct (@remove_id_safe n (set_order p (removelast (p_order p))) id) as (p' & e & A & B & D & _); auto.
      { eapply wf_frame; [| |exact HW]; auto. }
      exists p', e. split; auto.
  - apply NR. unfold ignore_prefix, with_pcm. rewrite Hp. apply PC. eapply wf_frame; [| |exact HW]; unfold pcm_ignore; destruct (existsb _ _); auto.
  - apply NR. unfold revive_prefix, with_pcm. rewrite Hp. apply PC. eapply wf_frame; [| |exact HW]; auto.
  - apply NR. unfold temp_update. destruct (vinsert_all vs (s_tvals s)) as [tv []|tv e|u] eqn:E; [cbn; eauto|cbn; eauto|].
    exfalso. eapply vinsert_all_not_undef; eauto.
  - cbn. eauto.
  - cbn. eauto.
Qed.

Lemma decent_given h o : decent_history C (h ++ [o]) -> decent_history C h /\ decent_graph (given o).
Proof.
  intro H. split.
  - intros b (o' & fs & vs & A & B). apply H. exists o', fs, vs. split; auto. apply in_or_app; auto.
  - intros b Hb. apply H. unfold given in Hb. destruct (call_of o) as [[fs vs]|] eqn:E; [|destruct Hb].
    exists o, fs, vs. split; auto. apply in_or_app. right. left. auto.
Qed.

Lemma sp_all_snoc h (o : op) : sp_all (h ++ [o]) = sp_all h ++ given o.
Proof. unfold sp_all. rewrite flat_map_app. cbn. rewrite app_nil_r. auto. Qed.

Lemma run_snoc_eq h o (s0 : solver) : run C W (h ++ [o]) s0 =
  obind (run C W h s0) (fun s rs => obind (step C W o s) (fun s' r => Ok s' (rs ++ [r]))).
Proof.
  revert s0. induction h as [|o' h IH]; intro s0; cbn [app run].
  - cbn [obind]. destruct (step C W o s0); auto.
  - destruct (step C W o' s0) as [s1 r| |]; cbn [obind]; auto. rewrite IH.
    destruct (run C W h s1) as [s2 rs| |]; cbn [obind]; auto. destruct (step C W o s2); auto.
Qed.

Lemma gentle_snoc h o : gentle C W (h ++ [o]) -> gentle C W h /\
  forall id, target C W h o = Some id -> let n := length (filter (of_pair id) (sp_live C W h)) in
    n = 0 \/ if c_loop_check C then 3 <= n else n = 2.
Proof.
  intro H. split.
  - intros h1 o' h2 id E. apply (H h1 o' (h2 ++ [o]) id). rewrite E, <- app_assoc. auto.
  - intros id. apply (H h o [] id). auto.
Qed.

Lemma gentle_fine h o (p : pcm) n : live_inv C W h p -> wf n p ->
  (forall id, target C W h o = Some id -> let n := length (filter (of_pair id) (sp_live C W h)) in
    n = 0 \/ if c_loop_check C then 3 <= n else n = 2) -> removal_fine o p.
Proof.
  intros L HW H.
  assert (G : forall id, target C W h o = Some id ->
     lc_find id (p_lcs p) = None \/ removable (length (me_factors (lc_get id (p_lcs p))))).
  { intros id Ht. specialize (H id Ht). cbv zeta in H. rewrite <- (li_lcs L) in H. unfold removable. destruct H as [H|H]; auto.
    destruct (wf_lc_get id HW) as [Z|(Z & _)]; auto. apply length_pos in Z. lia. }
  destruct o; cbn [removal_fine]; auto.
  rewrite (li_order L). cbn [target] in G. destruct (rev (sp_order C W h)); auto.
Qed.

Lemma small_mono n n' : n <= n' -> small n' -> small n.
Proof. unfold small. intros H X Y. specialize (X Y). lia. Qed.

Lemma wf_init : wf 0 pcm_init.
Proof. split; constructor. Qed.

(** The state after a completed history is well formed. *)
Lemma wf_run h : forall (s : solver) rs, run C W h start = Ok s rs -> decent_history C h -> gentle C W h -> small (length (sp_all h)) ->
  exists p, s_pcm s = Some p /\ wf (length (sp_all h)) p.
Proof.
  induction h as [|o h IH] using rev_ind; intros s rs H Hd Hg Hs.
  - injection H as <- <-. exists pcm_init. split; auto. apply wf_init.
  - apply decent_given in Hd. destruct Hd as [Hd Hdo]. apply gentle_snoc in Hg. destruct Hg as [Hg Hgo].
    rewrite sp_all_snoc, app_length in *.
    pose proof H as HR. apply run_snoc in HR. destruct HR as (s0 & rs0 & r & HR & HS & _).
    destruct (IH _ _ HR Hd Hg) as (p & Hp & HW); [eapply small_mono; [|exact Hs]; lia|].
    destruct (live_run _ _ _ HR) as (p0 & I & L). assert (p0 = p) by (pose proof (hi_pcm I); congruence). subst p0.
    rewrite Nat.add_comm. pose proof (step_inv C W o s0 Hp HS) as (s1 & p' & b & [E0 E] & _ & _ & HO & Ho).
    assert (Hp' : s_pcm s = Some p').
    { destruct (optimises o b); [|congruence]. destruct (optimize_same C W s1 Ho) as (G & _). congruence. }
    exists p'. split; auto. rewrite Nat.add_comm in Hs.
    assert (MON : wf (length (sp_all h)) p' -> wf (length (given o) + length (sp_all h)) p') by (apply wf_mono; lia).
    assert (CALL : forall fs vs, call_of o = Some (fs, vs) -> remove_outliers C (so_pcm W) fs vs (PSt p (s_nfg s0) (s_vals s0)) = Ok (PSt p' (s_nfg s1) (s_vals s1)) b ->
      wf (length (given o) + length (sp_all h)) p').
    { intros fs vs Hc X. unfold given in *. rewrite Hc in *.
      pose proof (@remove_outliers_safe fs vs p (s_nfg s0) (s_vals s0) _ HW Hdo Hs) as Y. rewrite X in Y. exact Y. }
    pose proof (gentle_fine _ L HW Hgo) as RF.
    destruct o as [fs vs opt|fs vs|c opt|a b0| |c|c|fs vs|fs vs|]; cbn [given call_of] in *.
    + apply (CALL fs vs); eauto.
    + apply (CALL fs vs); eauto.
    + apply MON. destruct E as (-> & _). eapply wf_frame; [| |exact HW]; auto.
    + apply MON. destruct E as (e & _ & X & _). destruct (@remove_id_safe _ p (a, b0) HW RF) as (q & e' & A & B & _).
      rewrite A in X. injection X as <- <-. auto.
    + apply MON. destruct E as (e & _ & X & _). unfold pcm_remove_last in X. cbn [removal_fine] in RF.
      destruct (rev (p_order p)) as [|id l]; [injection X as <- <-; auto|].
      destruct (@remove_id_safe (length (sp_all h)) (set_order p (removelast (p_order p))) id) as (q & e' & A & B & _); auto.
      { eapply wf_frame; [| |exact HW]; auto. } rewrite A in X. injection X as <- <-. auto.
    + apply MON. destruct E as (-> & _). eapply wf_frame; [| |exact HW]; unfold pcm_ignore; destruct (existsb _ _); auto.
    + apply MON. destruct E as (-> & _). eapply wf_frame; [| |exact HW]; auto.
    + apply MON. destruct E as (-> & _). auto.
    + apply MON. destruct E as (-> & _). auto.
    + apply MON. destruct E as (-> & _). auto.
Qed.

(** Whatever the configuration: no update goes wrong while factors are taken in. *)
Lemma safe_ingest h (s : solver) rs fs vs u : run C W h start = Ok s rs -> decent_history C h -> gentle C W h ->
  decent_graph fs -> small (length (sp_all h) + length fs) -> ingest C W fs vs s <> Undef u.
Proof.
  intros H Hd Hg Hf Hs. destruct (@wf_run _ _ _ H Hd Hg) as (p & Hp & HW); [eapply small_mono; [|exact Hs]; lia|].
  rewrite Nat.add_comm in Hs. destruct (hist_run C W _ H) as [p0 I]. assert (p0 = p) by (pose proof (hi_pcm I); congruence). subst p0.
  pose proof (@ingest_safe fs vs s p _ Hp HW Hf Hs) as X.
  intro E. rewrite E in X. apply X. intros _. rewrite (hi_nfg I). apply graph_of_room.
Qed.

Lemma safe_run h u : decent_history C h -> gentle C W h -> small (length (sp_all h)) -> c_gnc C = true -> c_fix C = false ->
  run C W h start <> Undef u.
Proof.
  induction h as [|o h IH] using rev_ind; intros Hd Hg Hs HG HX; [discriminate|].
  pose proof Hd as Hd0. pose proof Hg as Hg0. apply decent_given in Hd. destruct Hd as [Hd Hdo]. apply gentle_snoc in Hg. destruct Hg as [Hg Hgo].
  rewrite sp_all_snoc, app_length in *. assert (Hs' : small (length (sp_all h))) by (eapply small_mono; [|exact Hs]; lia).
  rewrite run_snoc_eq. destruct (run C W h start) as [s rs|s e|u'] eqn:HR; cbn [obind]; [|discriminate|].
  2:{ intro. eapply IH; eauto. }
  destruct (@wf_run _ _ _ HR Hd Hg Hs') as (p & Hp & HW).
  destruct (live_run _ _ _ HR) as (p0 & I & L). assert (p0 = p) by (pose proof (hi_pcm I); congruence). subst p0.
  rewrite Nat.add_comm in Hs. pose proof (@step_safe o s p _ Hp HW Hdo Hs) as X.
  destruct (step C W o s) as [s' r| |]; cbn [obind]; try discriminate. intros _. apply X; auto.
  - intros _. rewrite (hi_nfg I). apply graph_of_room.
  - eapply gentle_fine; eauto.
Qed.

(** With the caller catching exceptions. *)
Lemma safe_run_on h u : decent_history C h -> no_removal h -> small (length (sp_all h)) ->
  c_gnc C = true -> c_fix C = false -> c_bias C = false -> run_on C W h start <> Bad u.
Proof.
  intros Hd Hr Hs HG HX HB.
  assert (G : forall h (s : solver) p n, s_pcm s = Some p -> wf n p -> (forall b, delivered h (FBetween b) -> decent b) ->
     no_removal h -> small (length (sp_all h) + n) -> run_on C W h s <> Bad u).
  { clear h Hd Hr Hs. induction h as [|o h IH]; intros s p n Hp HW Hd Hr Hs; cbn [run_on]; [discriminate|].
    assert (Hdo : decent_graph (given o)).
    { intros b Hb. apply Hd. unfold given in Hb. destruct (call_of o) as [[fs vs]|] eqn:E; [|destruct Hb].
      exists o, fs, vs. split; auto. left. auto. }
    assert (Hd' : forall b, delivered h (FBetween b) -> decent b).
    { intros b (o' & fs & vs & A & B). apply Hd. exists o', fs, vs. split; auto. right. auto. }
    assert (Hr' : no_removal h) by (intros x Hx; apply Hr; right; auto).
    assert (Hro : is_removal o = false) by (apply Hr; left; auto).
    assert (Hs0 : small (length (given o ++ sp_all h) + n)) by exact Hs. clear Hs. rename Hs0 into Hs. rewrite app_length in Hs.
    pose proof (@step_safe o s p n Hp HW Hdo) as X.
    assert (Y : safe_out (length (given o) + n) (step C W o s)).
    { apply X; auto.
      - eapply small_mono; [|exact Hs]. lia.
      - intro Z. congruence.
      - destruct o; try discriminate; exact I. }
    destruct (step C W o s) as [s1 r|s1 e|u'].
    - destruct Y as (p1 & A & B). eapply (IH s1 p1 _ A B); auto. eapply small_mono; [|exact Hs]. lia.
    - destruct Y as (p1 & A & B). eapply (IH s1 p1 _ A B); auto. eapply small_mono; [|exact Hs]. lia.
    - destruct Y. }
  apply (G h start pcm_init 0); auto; [apply wf_init|]. rewrite Nat.add_0_r. auto.
Qed.

Lemma gentle_no_removal h : no_removal h -> gentle C W h.
Proof.
  intros H h1 o h2 id -> Ht. assert (is_removal o = false) by (apply H, in_or_app; right; left; auto).
  destruct o; discriminate.
Qed.
End Safe.
