(** * The same calls with other names for robots and poses *)
From Coq Require Import QArith.
From Verif Require Import Prelude Keys KMap UMap Geometry Factors Clique Pcm Solver PcmSpec HistSpec.
Set Implicit Arguments.
Local Open Scope nat_scope.

Section Spec.
Variable O : tops.
(** New names of keys and of prefixes. *)
Variable f : key -> key.
Variable r : N -> N.
Notation bf := (bf O).
Notation factor := (factor O).
Notation values := (values O).
Notation graph_t := (graph_t O).
Notation op := (op O).
Notation solver := (solver O).

Definition nm_bf (b : bf) : bf := BF (f (b_from b)) (f (b_to b)) (b_meas b) (b_noise b).
Definition nm_factor (x : factor) : factor :=
  match x with
  | FBetween b => FBetween (nm_bf b)
  | FPrior k p => FPrior (f k) p
  | FPriorOther k t => FPriorOther (f k) t
  | FOther ks t => FOther (map f ks) t
  end.
Definition nm_graph (g : graph_t) : graph_t := map (option_map nm_factor) g.
Definition nm_map {V} (m : kmap V) : kmap V := map (fun x => (f (fst x), snd x)) m.
Definition nm_op (o : op) : op :=
  match o with
  | OpUpdate fs vs opt => OpUpdate (nm_graph fs) (nm_map vs) opt
  | OpForce fs vs => OpForce (nm_graph fs) (nm_map vs)
  | OpRemovePriors c opt => OpRemovePriors (r c) opt
  | OpRemoveId a b => OpRemoveId (r a) (r b)
  | OpRemoveLast => OpRemoveLast
  | OpIgnore c => OpIgnore (r c)
  | OpRevive c => OpRevive (r c)
  | OpTempUpdate fs vs => OpTempUpdate (nm_graph fs) (nm_map vs)
  | OpTempReplace fs vs => OpTempReplace (nm_graph fs) (nm_map vs)
  | OpTempClear => OpTempClear
  end.
Definition nm_config (C : config) : config :=
  Cfg (map r (c_special C)) (c_odom_check C) (c_loop_check C) (c_incremental C) (c_align C) (c_gnc C) (c_fix C)
      (c_bias C) (c_gn C) (c_debug C) (c_log C).

(** The same state, results and exceptions in the new names. *)
Definition nm_id (x : obsid) : obsid := (r (fst x), r (snd x)).
Definition nm_meas (m : meas O) : meas O := Meas (map nm_bf (me_factors m)) (map nm_bf (me_cons m)) (me_adj m).
Definition nm_umap {K K' V V'} (g : K -> K') (w : V -> V') (m : umap K V) : umap K' V' :=
  map (fun x => (g (fst x), w (snd x))) m.
Definition nm_pcm (p : pcm O) : pcm O :=
  Pcm (map nm_bf (p_odom p)) (map nm_factor (p_special p)) (nm_umap nm_id nm_meas (p_lcs p))
      (nm_umap r (@nm_map (t_T O)) (p_trajs p)) (nm_umap f nm_meas (p_lms p)) (map nm_id (p_order p)) (p_total p) (p_good p)
      (map r (p_ignored p)) (map r (p_robots p)).
Definition nm_request (q : request O) : request O :=
  Req (nm_graph (rq_graph q)) (nm_map (rq_vals q)) (rq_known q) (rq_init q).
Definition nm_solver (s : solver) : solver :=
  Sol (option_map nm_pcm (s_pcm s)) (nm_graph (s_nfg s)) (nm_map (s_vals s)) (nm_graph (s_tnfg s)) (nm_map (s_tvals s))
      (s_w s) (s_tw s) (s_ninl s) (s_latest s) (map nm_request (s_trace s)).
Definition nm_edge (e : key * key) : key * key := (f (fst e), f (snd e)).
Definition nm_ret (x : ret) : ret := option_map (option_map nm_edge) x.
Definition nm_exn (e : exn) : exn :=
  match e with
  | KeyAlreadyExists k => KeyAlreadyExists (f k)
  | KeyDoesNotExist k => KeyDoesNotExist (f k)
  | IncorrectType k => IncorrectType (f k)
  | _ => e
  end.
Definition nm_outcome {A} (w : A -> A) (x : outcome solver A) : outcome solver A :=
  match x with
  | Ok s a => Ok (nm_solver s) (w a)
  | Throw s e => Throw (nm_solver s) (nm_exn e)
  | Undef u => Undef u
  end.

(** Keys of the factors handed over; prefixes of these and prefixes named by calls. *)
Definition named (h : list op) (k : key) : Prop := exists x, delivered h x /\ In k (f_keys x).
Definition prefix_used (h : list op) (c : N) : Prop :=
  (exists k, named h k /\ chr k = c) \/ (exists opt, In (OpRemovePriors c opt) h).
Definition gives (h : list op) (b : bf) : Prop := delivered h (FBetween b).

(** New names keep the order of keys and of prefixes, which keys share a prefix, and which keys
    are consecutive. *)
Record renames (h : list op) : Prop := {
  rn_keys : forall a b, (a < b)%N -> (f a < f b)%N;
  rn_robots : exists g, forall c, g (r c) = c;
  rn_chr : forall k, named h k -> chr (f k) = r (chr k);
  rn_next : forall b, gives h b -> (ksucc (f (b_from b)) = f (b_to b) <-> ksucc (b_from b) = b_to b);
  rn_plain : forall c, prefix_used h c -> ((r c < 128)%N <-> (c < 128)%N);
  rn_sorted : forall c d, prefix_used h c -> prefix_used h d -> ((schar (r c) <= schar (r d))%Z <-> (schar c <= schar d)%Z) }.

(** Poses numbered zero stay so, for robots that see a landmark another robot sees too. *)
Definition special_prefix (sp : list N) (k : key) : Prop := In (chr k) sp.
Definition zero_kept (sp : list N) (h : list op) : Prop := forall b b', gives h b -> gives h b' ->
  b_to b = b_to b' -> special_prefix sp (b_to b) -> chr (b_from b) <> chr (b_from b') ->
  f (sym (chr (b_from b)) 0) = sym (r (chr (b_from b))) 0.

(** The surroundings answer the same in the new names: iteration orders, averages, freed memory,
    optimiser. *)
Record follows (W W' : soracles O) : Prop := {
  fo_lc : forall l x, w_lc_order (so_pcm W') (map nm_id l) (nm_id x) = w_lc_order (so_pcm W) l x;
  fo_lm : forall l x, w_lm_order (so_pcm W') (map f l) (f x) = w_lm_order (so_pcm W) l x;
  fo_avg : forall l, w_avg (so_pcm W') l = w_avg (so_pcm W) l;
  fo_freed : w_freed (so_pcm W') = w_freed (so_pcm W);
  fo_opt : forall l q,
    match so_opt W l q, so_opt W' (map nm_request l) (nm_request q) with
    | None, None => True
    | Some a, Some a' => (forall k, an_pose a' (f k) = an_pose a k) /\ (forall k, an_other a' (f k) = an_other a k) /\
                         (forall i, an_w a' i = an_w a i)
    | _, _ => False
    end }.

(** Measurements are read without looking at the keys. *)
Definition keys_unread : Prop := forall b b' : bf, b_meas b = b_meas b' -> b_noise b = b_noise b' -> t_of O b = t_of O b'.
End Spec.
