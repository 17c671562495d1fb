(** * Specification vocabulary for estimates, weights and temporary values *)
From Coq Require Import QArith.
From Verif Require Import Prelude Keys KMap Geometry Factors Pcm Solver PcmSpec HistSpec.
Set Implicit Arguments.
Local Open Scope nat_scope.

Section Spec.
Variable O : tops.
Notation bf := (bf O).
Notation values := (values O).
Notation op := (op O).

(** The value [v'] of variable [k] is what the optimiser answered for it, of the type [v] had. *)
Definition answered (a : answer O) (k : key) (v v' : value O) : Prop :=
  match v, v' with
  | VPose _, VPose x => x = an_pose a k
  | VOther _, VOther n => n = an_other a k
  | _, _ => False
  end.

(** All the variables of one map hold the answer to the values in another. *)
Definition holds_answer (a : answer O) (before after : values) : Prop :=
  forall k v', kfind k after = Some v' -> exists v, kfind k before = Some v /\ answered a k v v'.

(** The values given with a call. *)
Definition values_of (o : op) : values := match call_of o with Some (_, vs) => vs | None => [] end.

(** Look a variable up in several maps, the first that has it wins. *)
Fixpoint first_of (k : key) (ms : list values) : option (value O) :=
  match ms with
  | [] => None
  | m :: ms' => match kfind k m with Some v => Some v | None => first_of k ms' end
  end.

(** The temporary variables after a history. *)
Definition sp_temp_keys (h : list op) : list key :=
  fold_left (fun acc o => match o with
                          | OpTempUpdate _ vs => acc ++ map fst vs
                          | OpTempReplace _ vs => map fst vs
                          | OpTempClear => []
                          | _ => acc
                          end) h [].

(** Every between factor given that is not odometry: loop closures and landmark sightings. *)
Definition sp_closures (sp : list N) (h : list op) : list bf :=
  flat_map (fun o => match call_of o with
                     | Some (fs, vs) => filter (fun b => negb (sp_odometry sp vs b)) (betweens fs)
                     | None => []
                     end) h.

(** At no time have more loop closures and landmark sightings been given than odometry factors. *)
Definition mostly_odometry (sp : list N) (h : list op) : Prop :=
  forall h1 h2, h = h1 ++ h2 -> length (sp_closures sp h1) <= length (sp_odoms sp h1).

(** ** What a call does to the estimates

    [s] is the state before, [s'] the state after; a request ends in [s_trace]. *)
Variable C : config.
Variable W : soracles O.
Notation solver := (solver O).

(** What an optimisation leaves behind. *)
Definition settled (s s' : solver) (q : request O) (a : answer O) : Prop :=
  s_trace s' = s_trace s ++ [q] /\ so_opt W (s_trace s) q = Some a /\
  (forall k, In k (map fst (rq_vals q)) <-> In k (map fst (s_vals s')) \/ In k (map fst (s_tvals s'))) /\
  (forall k, In k (map fst (s_tvals s')) <-> In k (map fst (s_tvals s))) /\
  holds_answer a (rq_vals q) (s_vals s') /\ holds_answer a (rq_vals q) (s_tvals s') /\
  (rq_known q <> None ->
     s_w s' = map (an_w a) (seq 0 (length (s_nfg s'))) /\
     s_tw s' = map (an_w a) (seq (length (s_nfg s')) (length (s_tnfg s')))) /\
  (rq_known q = None ->
     s_latest s <= length (s_w s) /\
     s_w s' = repeat 1%Q (length (s_nfg s') - s_latest s) ++ skipn (length (s_w s) - s_latest s) (s_w s) /\
     s_tw s' = repeat 1%Q (length (s_tnfg s'))).

(** What the call does to the temporary values before any optimisation. *)
Definition temps_given (o : op) (before after : values) : Prop :=
  match o with
  | OpTempUpdate _ vs => forall k, kfind k after = first_of k [before; vs]
  | OpTempReplace _ vs => forall k, kfind k after = kfind k vs
  | OpTempClear => after = []
  | _ => after = before
  end.

Definition untouched (o : op) (s s' : solver) : Prop :=
  s_trace s' = s_trace s /\ s_w s' = s_w s /\ s_tw s' = s_tw s /\
  (c_align C = false \/ call_of o = None -> forall k, kfind k (s_vals s') = first_of k [s_vals s; values_of o]) /\
  temps_given o (s_tvals s) (s_tvals s').

Definition estimated (o : op) (s s' : solver) : Prop := is_temp o = false /\ exists q a, settled s s' q a /\
  (c_align C = false \/ call_of o = None -> forall k, kfind k (rq_vals q) = first_of k [s_vals s; values_of o; s_tvals s]).

End Spec.
