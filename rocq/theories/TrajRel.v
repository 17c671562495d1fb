(** * Relative odometric poses after any history *)
From Verif Require Import Prelude Num Keys KMap UMap Geometry Factors Clique Pcm Solver ValuesProofs
  PcmSpec PcmProofs PcmInv PcmStore HistSpec SolverProofs HistProofs GraphProofs TrajProofs AlgProofs.
From Coq Require Import ZArith.
Set Implicit Arguments.
Local Open Scope nat_scope.

Section Rel.
Variable O : tops.

Lemma chain_chr c k0 (bs : list (bf O)) : chr k0 = c -> chain k0 bs -> Forall (fun b => to_robot c b = true) bs ->
  forall i, i <= length bs -> chr (k0 + N.of_nat i)%N = c.
Proof.
  intros H0 HC HF. revert k0 H0 HC. induction HF as [|b bs Hb HF IH]; intros k0 H0 HC i Hi.
  - cbn in Hi. replace i with 0 by lia. cbn. rewrite N.add_0_r. auto.
  - destruct i as [|i]; [cbn; rewrite N.add_0_r; auto|]. cbn [chain] in HC. destruct HC as (_ & C2 & C3).
    replace (k0 + N.of_nat (S i))%N with (k0 + 1 + N.of_nat i)%N by lia. apply IH; auto; [|cbn in Hi; lia].
    rewrite <- C2. unfold to_robot in Hb. apply N.eqb_eq in Hb. auto.
Qed.

Lemma robot_odoms_to C c (h : list (op O)) : Forall (fun b => to_robot c b = true) (robot_odoms C c h).
Proof. apply Forall_forall. intros b Hb. apply filter_In in Hb. tauto. Qed.

Lemma rel_reckoned (p : pcm O) c k0 t0 (bs : list (bf O)) ds : chr k0 = c -> chain k0 bs ->
  Forall (fun b => to_robot c b = true) bs -> length bs = length ds ->
  reckoned p c k0 t0 ds -> forall i j, i <= length bs -> j <= length bs ->
  sp_rel (tref p) c (k0 + N.of_nat i)%N (k0 + N.of_nat j)%N = t_between O (reckon O t0 ds i) (reckon O t0 ds j).
Proof.
  intros H0 HC HF HL [_ HR] i j Hi Hj. unfold sp_rel.
  rewrite (@chain_chr c k0 bs H0 HC HF i Hi), (@chain_chr c k0 bs H0 HC HF j Hj), N.eqb_refl.
  rewrite !HR by lia. auto.
Qed.
End Rel.

Section Node.
Variable G : geom.
Variable pp : pcm_params.
Notation O := (node_ops G pp).
Variable C : config.
Variable W : soracles O.
Notation start := (solver_init (O := O) true).
Hypothesis L : pose_group G.

Theorem c33_node h1 o h2 s1 rs1 s rs p fs vs c k0 x0 :
  run C W h1 start = Ok s1 rs1 -> run C W (h1 ++ o :: h2) start = Ok s rs -> s_pcm s = Some p ->
  call_of o = Some (fs, vs) -> not_mentioned c h1 -> robot_odoms C c [o] <> [] ->
  kfind k0 (s_vals s1) = Some (VPose x0) \/ kfind k0 vs = Some (VPose x0) ->
  let bs := robot_odoms C c (h1 ++ o :: h2) in
  chr k0 = c -> chain k0 bs -> forall i j, i <= j <= length bs ->
  let rot := forallb (@knows_rot G) (firstn j bs) in
  tref p c (k0 + N.of_nat j)%N = PN G (g_comp G x0 (motion G (firstn j bs))) (Z.of_nat j) rot /\
  sp_rel (tref p) c (k0 + N.of_nat i)%N (k0 + N.of_nat j)%N = PN G (motion G (stretch i j bs)) (Z.of_nat (j - i)) rot /\
  sp_rel (tref p) c (k0 + N.of_nat j)%N (k0 + N.of_nat i)%N =
    PN G (g_inv G (motion G (stretch i j bs))) (Z.of_nat (j - i)) rot.
Proof.
  intros R1 R2 Hp HC Hn Ho Hv bs H0 Hch i j Hij rot.
  destruct (@c33 O C W h1 o h2 s1 rs1 s rs p fs vs c k0 x0 R1 R2 Hp HC Hn Ho Hv Hch) as (ds & D1 & D2).
  fold bs in D1. assert (LB : length bs = length ds) by (eapply Forall2_len; eauto).
  assert (HF : Forall (fun b => to_robot c b = true) bs) by apply robot_odoms_to.
  assert (RP : forall i j, i <= length bs -> j <= length bs ->
    sp_rel (tref p) c (k0 + N.of_nat i)%N (k0 + N.of_nat j)%N = pn_between (reckon O (pn_init G x0) ds i) (reckon O (pn_init G x0) ds j)).
  { intros i' j' Hi Hj. eapply (@rel_reckoned O p c k0 (pn_init G x0) bs ds); eauto. }
  assert (IN : increments (@pn_of G) bs ds) by exact D1.
  destruct (@node_between G L bs ds (pn_init G x0) i j IN Hij) as [N1 N2].
  split; [|split; [rewrite RP by lia; exact N1|rewrite RP by lia; exact N2]].
  destruct D2 as [_ D2]. rewrite D2 by lia. unfold reckon.
  assert (Hj : increments (@pn_of G) (firstn j bs) (firstn j ds)) by (apply Forall2_firstn; auto).
  change (fold_left (@pn_comp G) (firstn j ds) (pn_init G x0) = PN G (g_comp G x0 (motion G (firstn j bs))) (Z.of_nat j) rot).
  rewrite (node_fold L _ Hj). cbn [pn_init pn_pose pn_node pn_rot andb]. rewrite firstn_length_le by lia. reflexivity.
Qed.
End Node.

Section Cov.
Variable G : geom.
Variable pp : pcm_params.
Notation O := (cov_ops G pp).
Variable C : config.
Variable W : soracles O.
Notation start := (solver_init (O := O) true).
Hypothesis L : pose_group G.
Variable ok : g_cov G -> Prop.
Hypothesis A : cov_action G ok.

(** Composite of a stretch of increments, on its own. *)
Definition composite (ds : list (pcov G)) : pcov G := fold_left (@pc_comp G) ds (pc_default G).

Theorem c33_cov h1 o h2 s1 rs1 s rs p fs vs c k0 x0 :
  run C W h1 start = Ok s1 rs1 -> run C W (h1 ++ o :: h2) start = Ok s rs -> s_pcm s = Some p ->
  call_of o = Some (fs, vs) -> not_mentioned c h1 -> robot_odoms C c [o] <> [] ->
  kfind k0 (s_vals s1) = Some (VPose x0) \/ kfind k0 vs = Some (VPose x0) ->
  let bs := robot_odoms C c (h1 ++ o :: h2) in
  chr k0 = c -> chain k0 bs -> (forall b d, In b bs -> pc_of G b = Some d -> ok (pc_cov d)) ->
  exists ds, Forall2 (fun b d => pc_of G b = Some d) bs ds /\
  forall i j, i <= j <= length bs ->
  let m := composite (stretch i j ds) in
  let rot := forallb (@pc_rot G) (firstn j ds) in
  tref p c (k0 + N.of_nat j)%N = pc_comp (pc_init G x0) (composite (firstn j ds)) /\
  (g_llt_ok G (pc_cov m) = true ->
   sp_rel (tref p) c (k0 + N.of_nat i)%N (k0 + N.of_nat j)%N = PC G (pc_pose m) (pc_cov m) rot) /\
  (g_llt_ok G (g_csub G (pc_cov (tref p c (k0 + N.of_nat i)%N)) (g_act G (pc_pose m) (pc_cov (tref p c (k0 + N.of_nat j)%N)))) = false ->
   sp_rel (tref p) c (k0 + N.of_nat j)%N (k0 + N.of_nat i)%N = PC G (g_inv G (pc_pose m)) (pc_cov m) rot).
Proof.
  intros R1 R2 Hp HC Hn Ho Hv bs H0 Hch HOK.
  destruct (@c33 O C W h1 o h2 s1 rs1 s rs p fs vs c k0 x0 R1 R2 Hp HC Hn Ho Hv Hch) as (ds & D1 & D2).
  fold bs in D1. assert (LB : length bs = length ds) by (eapply Forall2_len; eauto).
  exists ds. split; [exact D1|]. intros i j Hij m rot.
  assert (OF : Forall (fun d => ok (pc_cov d)) ds).
  { clear - D1 HOK. change (Forall2 (fun b d => pc_of G b = Some d) bs ds) in D1.
    induction D1 as [|b d bs ds Hb D1 IH]; constructor.
    - apply (HOK b d); cbn; auto.
    - apply IH. intros b' d' Hin. apply HOK. cbn; auto. }
  assert (O0 : ok (pc_cov (pc_init G x0))) by exact (ca_ok_zero A).
  assert (HF : Forall (fun b => to_robot c b = true) bs) by apply robot_odoms_to.
  assert (RP : forall i j, i <= length bs -> j <= length bs ->
    sp_rel (tref p) c (k0 + N.of_nat i)%N (k0 + N.of_nat j)%N = pc_between (reckon O (pc_init G x0) ds i) (reckon O (pc_init G x0) ds j)).
  { intros i' j' Hi Hj. eapply (@rel_reckoned O p c k0 (pc_init G x0) bs ds); eauto. }
  assert (Hij' : i <= j <= length ds) by lia.
  destruct (@cov_between G L ok A ds (pc_init G x0) i j O0 OF Hij') as [N1 N2]. fold m in N1, N2.
  destruct D2 as [_ D2]. rewrite !D2 by lia.
  split; [apply (cov_fold_assoc L A); auto using Forall_firstn'|].
  split; intro HH; rewrite RP by lia; [exact (N1 HH)|exact (N2 HH)].
Qed.
End Cov.
