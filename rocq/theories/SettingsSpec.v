(** * What GTSAM should be told, and what averages should be: specification *)
From Coq Require Import QArith Qcanon String.
From Verif Require Import Prelude Num Keys KMap Geometry Factors Pcm Params ParamSpec Solver Lie LiePoses LieSpec Settings.
Set Implicit Arguments.
Local Open Scope nat_scope.

(** ** What each call says; arguments left out have the values in the header. *)
Definition or_else {A} (d : A) (o : option A) : A := match o with None => d | Some x => x end.

Definition say_gn (c : call) : option bool := match c with CallSolver g => Some g | _ => None end.
Definition say_damping (c : call) : option bool := match c with CallDamping b => Some b | _ => None end.
Definition say_verbosity (c : call) : option verbosity :=
  match c with
  | CallNoRejection v | CallPcm _ _ _ v | CallSimple _ _ _ v | CallSimple4 _ _ _ _ _ v => Some (or_else VUpdate v)
  | _ => None
  end.
Definition say_iterations (c : call) : option N :=
  match c with CallGnc _ _ n _ _ _ _ _ => Some (or_else 100%N n) | _ => None end.
Definition say_mu (c : call) : option double :=
  match c with CallGnc _ _ _ x _ _ _ _ => Some (or_else (dlit 14 10) x) | _ => None end.
Definition say_rel (c : call) : option double :=
  match c with CallGnc _ _ _ _ x _ _ _ => Some (or_else (dlit 1 100000) x) | _ => None end.
Definition say_wtol (c : call) : option double :=
  match c with CallGnc _ _ _ _ _ x _ _ => Some (or_else (dlit 1 10000) x) | _ => None end.
Definition say_bias (c : call) : option bool :=
  match c with CallGnc _ _ _ _ _ _ _ b => Some (or_else false b) | CallBias => Some true | _ => None end.
(** The bound on the errors of inliers: as a cost, or as a probability. *)
Definition say_bound (c : call) : option (bool * double) :=
  match c with CallGnc cost x _ _ _ _ _ _ => Some (cost, x) | _ => None end.
Definition say_align (c : call) : option align_method := match c with CallAlign m => Some m | _ => None end.
Definition say_prob (c : call) : option double := match c with CallProb x => Some x | _ => None end.
Definition say_folder (c : call) : option string := match c with CallLog f => Some f | _ => None end.

(** Is GNC ever asked for? *)
Definition asks_gnc (c : call) : Prop := match c with CallGnc _ _ _ _ _ _ _ _ => True | _ => False end.

(** One for what is known to be right, zero for the rest. *)
Definition marks (known : list nat) (n : nat) (w : list Q) : Prop :=
  length w = n /\ forall i, i < n -> (In i known -> nth_error w i = Some 1%Q) /\ (~ In i known -> nth_error w i = Some 0%Q).

(** The same object: calls on it come in this order, each at most once. *)
Definition rank (t : gtsam_call) : nat :=
  match t with
  | TellDamping _ => 0 | TellVerbose _ => 1 | TellKnown _ => 2 | TellIterations _ => 3 | TellMuStep _ => 4
  | TellRelativeTol _ => 5 | TellWeightsTol _ => 6 | TellWeights _ => 7 | TellCost _ => 8 | TellProbability _ => 8
  end.
Fixpoint rising (l : list nat) : Prop :=
  match l with
  | [] => True
  | x :: l' => match l' with [] => True | y :: _ => x < y end /\ rising l'
  end.

(** GTSAM is told exactly the calls [T] about the request [r], by settings made with the calls [l]. *)
Definition told_well {O} (l : list call) (r : request O) (T : list gtsam_call) : Prop :=
  exists gn damp v it mu rel wt bound bias,
    last_said say_gn false l gn /\ last_said say_damping true l damp /\ last_said say_verbosity VUpdate l v /\
    last_said say_iterations 100%N l it /\ last_said say_mu (dlit 14 10) l mu /\ last_said say_rel (dlit 1 100000) l rel /\
    last_said say_wtol (dlit 1 10000) l wt /\ last_said say_bound (false, dlit 9 10) l bound /\ last_said say_bias false l bias /\
    (rq_known r <> None -> exists c, In c l /\ asks_gnc c) /\
    rising (map rank T) /\
    (forall b, In (TellDamping b) T <-> gn = false /\ b = damp) /\
    (forall g, In (TellVerbose g) T <-> v <> VQuiet /\ g = gn) /\
    (forall k, In (TellKnown k) T <-> rq_known r = Some k) /\
    (forall n, In (TellIterations n) T <-> rq_known r <> None /\ n = it) /\
    (forall x, In (TellMuStep x) T <-> rq_known r <> None /\ x = mu) /\
    (forall x, In (TellRelativeTol x) T <-> rq_known r <> None /\ x = rel) /\
    (forall x, In (TellWeightsTol x) T <-> rq_known r <> None /\ x = wt) /\
    (forall x, In (TellCost x) T <-> rq_known r <> None /\ bound = (true, x)) /\
    (forall x, In (TellProbability x) T <-> rq_known r <> None /\ bound = (false, x)) /\
    (forall w, In (TellWeights w) T -> bias = true /\ exists k, rq_known r = Some k /\ marks k (length (rq_graph r)) w) /\
    (bias = true -> rq_known r <> None -> exists w, In (TellWeights w) T).

(** The calls [l] in the simpler language of [Params.v]. *)
Definition forget (c : call) : list setter :=
  match c with
  | CallNoRejection v => [SetNoRejection (or_else VUpdate v)]
  | CallIncremental => [SetIncremental]
  | CallPcm d o l v => [SetPcm d o l (or_else VUpdate v)]
  | CallSimple d t r v => [SetPcmSimple d t r (or_else VUpdate v)]
  | CallSimple4 d a b e f v => [SetPcmSimple4 d a b e f (or_else VUpdate v)]
  | CallGnc _ _ _ _ _ _ f b => [SetGnc (or_else false f) (or_else false b)]
  | CallFix => [GncFixInliers]
  | CallBias => [GncBiasOdom]
  | CallAlign AlignNone => [SetAlign false]
  | CallAlign _ => [SetAlign true]
  | CallLog _ => [LogOutput]
  | CallSolver g => [SetSolver g]
  | CallSpecial l => [SetSpecial l]
  | CallDamping _ | CallProb _ => []
  end.

(** ** Averages *)
Section Cost.
Variable P : Type.
Variable comp : P -> P -> P.
Variable inv : P -> P.
Variable lg : P -> nat -> Qc.
Variable dim : nat.

(** Error of [t] against the measurement [x]: half the sum of the squares of the components of the
    logarithm of the difference, in units of their standard deviations. *)
Definition away (sg : nat -> Qc) (t x : P) : Qc :=
  (Q2Qc (1 # 2) * @ksum qs dim (fun i => (lg (comp (inv t) x) i / sg i) * (lg (comp (inv t) x) i / sg i)))%Qc.

(** Errors above the limit count as the limit. *)
Definition capped (c : option Qc) (e : Qc) : Qc :=
  match c with
  | None => e
  | Some c => if Qclt_le_dec c e then c else e
  end.

Definition cost (c : option Qc) (sg : nat -> Qc) (ps : list P) (t : P) : Qc :=
  fold_right (fun x s => capped c (away sg t x) + s)%Qc (Q2Qc 0) ps.
Definition best (c : option Qc) (pr : avg_problem P) (t : P) : Prop :=
  forall u, (cost c (av_sigma pr) (av_poses pr) t <= cost c (av_sigma pr) (av_poses pr) u)%Qc.

(** The logarithm of the identity, and of nothing else, is zero. *)
Definition sharp_log (id : P) : Prop := forall p, (forall i, i < dim -> lg p i = Q2Qc 0) <-> p = id.

(** No pose has errors below [c] against both [x] and [y]. *)
Definition far (sg : nat -> Qc) (c : Qc) (x y : P) : Prop := forall t, (c <= away sg t x)%Qc \/ (c <= away sg t y)%Qc.
End Cost.
