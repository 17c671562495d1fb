(** * A concrete pose group for examples and refutations

    Poses of a robot on the integer grid with quarter turns: a non-abelian group in which all
    arithmetic is exact.  Covariances are integers (scalar variances). *)
From Coq Require Import QArith.
From Verif Require Import Prelude Num Keys KMap UMap Geometry Factors Clique Pcm Params Solver.
Set Implicit Arguments.
Local Open Scope Z_scope.

Inductive rot := R0 | R1 | R2 | R3.
Definition rot_comp (a b : rot) : rot :=
  match a, b with
  | R0, r => r
  | R1, R0 => R1 | R1, R1 => R2 | R1, R2 => R3 | R1, R3 => R0
  | R2, R0 => R2 | R2, R1 => R3 | R2, R2 => R0 | R2, R3 => R1
  | R3, R0 => R3 | R3, R1 => R0 | R3, R2 => R1 | R3, R3 => R2
  end.
Definition rot_inv (a : rot) : rot := match a with R0 => R0 | R1 => R3 | R2 => R2 | R3 => R1 end.
Definition rot_app (a : rot) (x y : Z) : Z * Z :=
  match a with R0 => (x, y) | R1 => (- y, x) | R2 => (- x, - y) | R3 => (y, - x) end.

Record gpose := GP { gx : Z; gy : Z; gr : rot }.
Definition gp_id : gpose := GP 0 0 R0.
Definition gp_comp (a b : gpose) : gpose :=
  let '(x, y) := rot_app (gr a) (gx b) (gy b) in GP (gx a + x) (gy a + y) (rot_comp (gr a) (gr b)).
Definition gp_inv (a : gpose) : gpose :=
  let '(x, y) := rot_app (rot_inv (gr a)) (- gx a) (- gy a) in GP x y (rot_inv (gr a)).

Lemma gp_assoc a b c : gp_comp a (gp_comp b c) = gp_comp (gp_comp a b) c.
Proof.
  destruct a as [ax ay ar], b as [bx by_ br], c as [cx cy cr].
  destruct ar, br, cr; unfold gp_comp; cbn [gr gx gy rot_app rot_comp]; f_equal; lia.
Qed.
Lemma gp_id_l a : gp_comp gp_id a = a.
Proof. destruct a as [x y r]. unfold gp_comp; cbn. reflexivity. Qed.
Lemma gp_id_r a : gp_comp a gp_id = a.
Proof. destruct a as [x y r]. destruct r; unfold gp_comp; cbn [gp_id gr gx gy rot_app rot_comp]; f_equal; lia. Qed.
Lemma gp_inv_l a : gp_comp (gp_inv a) a = gp_id.
Proof.
  destruct a as [x y r]. destruct r; unfold gp_comp, gp_inv, gp_id;
    cbn [gr gx gy rot_app rot_comp rot_inv]; f_equal; lia.
Qed.
Lemma gp_inv_r a : gp_comp a (gp_inv a) = gp_id.
Proof.
  destruct a as [x y r]. destruct r; unfold gp_comp, gp_inv, gp_id;
    cbn [gr gx gy rot_app rot_comp rot_inv]; f_equal; lia.
Qed.

Definition gp_tsq (a : gpose) : Z := gx a * gx a + gy a * gy a.
Definition gp_rsq (a : gpose) : Z := match gr a with R0 => 0 | R1 => 2 | R2 => 10 | R3 => 2 end.

(** Variance -1 stands for a covariance whose rotation block is not a number. *)
Definition grid : geom :=
  {| g_pose := gpose; g_id := gp_id; g_comp := gp_comp; g_inv := gp_inv;
     g_log_tsq := fun a => dofZ (gp_tsq a);
     g_log_rsq := fun a => dofZ (gp_rsq a);
     g_cov := Z; g_czero := 0; g_cadd := Z.add; g_csub := Z.sub; g_act := fun _ c => c;
     g_rot_nan := fun c => c =? -1;
     g_keep_trans := fun _ => 1;
     g_llt_ok := fun c => 0 <? c;
     g_maha_sq := fun p c b => ddiv (dofZ (gp_tsq p + if b then gp_rsq p else 0)) (dofZ c) |}.

(** Short names for building inputs. *)
Definition K (c i : N) : key := sym c i.
Definition ka (i : N) := sym 97 i.
Definition kb (i : N) := sym 98 i.
Definition kc (i : N) := sym 99 i.
Definition kl (i : N) := sym 108 i.

Section Build.
Variable pp : pcm_params.
Definition gops := node_ops grid pp.
Definition gcov := cov_ops grid pp.

Definition nb (f t : key) (m : gpose) : bf gops := @BF gpose Z f t m (Gauss 1).
Definition gbet (f t : key) (m : gpose) : option (factor gops) := Some (FBetween (nb f t m)).
Definition gprior (k : key) (m : gpose) : option (factor gops) := Some (@FPrior gops k m).
Definition gval (k : key) (m : gpose) : key * value gops := (k, @VPose gops m).
End Build.

(** Thresholds: odometry error per node below [o], pairwise error per node below [d]. *)
Definition simple_params (o d : Z) : pcm_params :=
  PcmParams (dofZ 10) (dofZ 5) (dofZ o) (dofZ o) (dofZ d) (dofZ d) false.

(** Iteration in order of insertion, no alignment failure, freed memory unchanged, optimiser that
    keeps the initial values (identity poses) and gives weight one. *)
Definition plain_oracles (O : tops) (avg : t_pose O) : oracles O :=
  Oracles O (fun _ _ => 0%nat) (fun _ _ => 0%nat) (fun _ => Some avg) (fun _ a => a).
Definition plain_soracles (O : tops) (avg : t_pose O) : soracles O :=
  @SOracles O (plain_oracles O avg) (fun _ r =>
     Some (Ans (fun k => match kfind k (rq_vals r) with Some (VPose p) => p | _ => avg end)
               (fun k => match kfind k (rq_vals r) with Some (VOther t) => t | _ => 0%nat end)
               (fun _ => 1%Q))).

(** A configuration without any option; [l]: landmark prefixes. *)
Definition plain_cfg (l : list N) : config :=
  Cfg l true true false false false false false false false false.
