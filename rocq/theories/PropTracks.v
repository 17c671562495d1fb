(** * Separated trajectories: theorems (C61) *)
From Coq Require Import String Ascii.
From Verif Require Import Prelude Num NumText Keys KMap TextSpec G2o G2oSpec Logs LogsSpec Tracks TracksSpec TracksProofs.
Local Open Scope string_scope.

(** ** C61: every robot's poses go to its own file *)

(** For robots with ordinary prefixes and a file with poses only. *)
Theorem C61_separated_partial : forall opens flushed folder load file more vs d,
  out_folder opens folder -> load file = Some vs -> ksorted vs -> Forall machine_key (kkeys vs) ->
  Forall (fun k => nameable (chr k)) (kkeys vs) -> Forall (fun e => is_pose3 (snd e)) vs ->
  exists d', main_tracks opens flushed load (file :: folder :: more) d = Ok d' tt /\
    (forall c, of_robot c vs <> [] -> exists text, d' (robot_file folder c) = Some text /\ track_of text (of_robot c vs)) /\
    (forall q, (forall c, of_robot c vs <> [] -> q <> robot_file folder c) -> d' q = d q).
Proof. exact tracks_complete. Qed.
Print Assumptions C61_separated_partial.

(** Robots do not share files. *)
Theorem C61_own_file : forall folder a b, (a < 256)%N -> (b < 256)%N -> robot_file folder a = robot_file folder b -> a = b.
Proof.
  intros folder a b Ha Hb E. apply append_inj in E. apply append_inj in E. apply append_inj in E. injection E as E.
  apply ascii_inj; auto.
Qed.
Print Assumptions C61_own_file.

(** If something else than a pose is in the file, robots up to the first one that has such a variable
    are served in the order of signed characters; the others get no file. *)
Theorem C61_exception : forall opens flushed folder load file more vs d r g k v rest,
  out_folder opens folder -> load file = Some vs -> ksorted vs -> Forall machine_key (kkeys vs) ->
  Forall (fun k => nameable (chr k)) (kkeys vs) ->
  of_robot r vs = (g ++ (k, v) :: rest)%list -> Forall (fun e => is_pose3 (snd e)) g -> ~ is_pose3 v ->
  (forall c, (schar c < schar r)%Z -> Forall (fun e => is_pose3 (snd e)) (of_robot c vs)) ->
  exists d', main_tracks opens flushed load (file :: folder :: more) d = Throw d' (IncorrectType k) /\
    (forall c, (schar c < schar r)%Z -> of_robot c vs <> [] ->
       exists text, d' (robot_file folder c) = Some text /\ track_of text (of_robot c vs)) /\
    (exists text full, d' (robot_file folder r) = Some text /\ String.prefix text full = true /\ track_of full g) /\
    (forall q, (forall c, (schar c <= schar r)%Z -> of_robot c vs <> [] -> q <> robot_file folder c) -> d' q = d q).
Proof. exact tracks_exception. Qed.
Print Assumptions C61_exception.

(** How a run ends: normally exactly if there are only poses. *)
Theorem C61_end : forall opens flushed folder load file more vs d,
  load file = Some vs -> ksorted vs ->
  match main_tracks opens flushed load (file :: folder :: more) d with
  | Ok _ _ => Forall (fun e => is_pose3 (snd e)) vs
  | Throw _ e => exists k v, e = IncorrectType k /\ In (k, v) vs /\ ~ is_pose3 v
  | Undef _ => False
  end.
Proof. exact tracks_end. Qed.
Print Assumptions C61_end.

(** Keys that are plain numbers: at most the file [robot_], without extension, is written. *)
Theorem C61_plain_keys : forall opens flushed folder load file more vs d,
  out_folder opens folder -> load file = Some vs -> ksorted vs -> Forall plain_key (kkeys vs) ->
  Forall (fun e => is_pose3 (snd e)) vs -> vs <> [] ->
  exists d', main_tracks opens flushed load (file :: folder :: more) d = Ok d' tt /\
    forall q, q <> folder ++ "/robot_" -> d' q = d q.
Proof. exact tracks_plain. Qed.
Print Assumptions C61_plain_keys.

(** *** Cases *)

Definition tp (x : Z) : gvalue := GPose3 (dofZ x) (dofZ (2 * x)) dzero dzero dzero dzero (dofZ 1).
Definition two_robots : gvalues := [(sym 97 0, tp 1); (sym 97 1, tp 2); (sym 98 0, tp (-3))].
Definition empty_disk : disk := fun _ => None.

Lemma all_open_folder path : without "000" path -> out_folder (fun _ => true) path.
Proof. intro H. split; auto. Qed.

Lemma out_without : without "000" "out".
Proof. repeat split; discriminate. Qed.

Example C61_example :
  out_folder (fun _ => true) "out" /\ ksorted two_robots /\ Forall machine_key (kkeys two_robots) /\
  Forall (fun k => nameable (chr k)) (kkeys two_robots) /\ Forall (fun e => is_pose3 (snd e)) two_robots /\
  match main_tracks (fun _ => true) 0 (fun _ => Some two_robots) ["in.g2o"; "out"] empty_disk with
  | Ok d _ => d "out/robot_a.csv" =
      Some ("#timestamp, p_RS_R_x [m], p_RS_R_y [m], p_RS_R_z [m], q_RS_w [], q_RS_x [], q_RS_y [], q_RS_z [], " ++ newline ++
            "0 , 1,2,0,1,0,0,0," ++ newline ++ "0 , 2,4,0,1,0,0,0," ++ newline)
      /\ d "out/robot_c.csv" = None
  | _ => False
  end.
Proof.
  split; [exact (all_open_folder _ out_without)|]. split; [|split; [|split; [|split]]].
  - unfold ksorted. cbn [kkeys map fst two_robots]. repeat constructor; vm_compute; auto.
  - repeat constructor.
  - cbn [kkeys map fst two_robots]. repeat constructor; cbv; discriminate.
  - repeat constructor.
  - vm_compute. auto.
Qed.

(** The landmark [l0] stops the program before robot [z] is served. *)
Definition with_landmark : gvalues := [(sym 97 0, tp 1); (sym 108 0, GPoint3 dzero dzero dzero); (sym 122 0, tp 5)].

Theorem C61_separated_refuted :
  (* plain numbers: no robot has a file *)
  (exists vs, ksorted vs /\ Forall machine_key (kkeys vs) /\ Forall (fun e => is_pose3 (snd e)) vs /\ of_robot 0 vs <> [] /\
     exists d', main_tracks (fun _ => true) 0 (fun _ => Some vs) ["in.g2o"; "out"] empty_disk = Ok d' tt /\
       forall c, d' (robot_file "out" c) = None) /\
  (* a landmark: robot z has no file *)
  (ksorted with_landmark /\ Forall (fun k => nameable (chr k)) (kkeys with_landmark) /\ of_robot 122 with_landmark = [(sym 122 0, tp 5)] /\
     match main_tracks (fun _ => true) 0 (fun _ => Some with_landmark) ["in.g2o"; "out"] empty_disk with
     | Throw d e => e = IncorrectType (sym 108 0) /\ d (robot_file "out" 122) = None
     | _ => False
     end).
Proof.
  split.
  - exists [(0%N, tp 1); (1%N, tp 2)].
    assert (HS : ksorted [(0%N, tp 1); (1%N, tp 2)]).
    { unfold ksorted. cbn [kkeys map fst]. repeat constructor; vm_compute; auto. }
    split; [exact HS|]. split; [repeat constructor|]. split; [repeat constructor|]. split; [discriminate|].
    destruct (C61_plain_keys (fun _ => true) 0 "out" (fun _ => Some [(0%N, tp 1); (1%N, tp 2)]) "in.g2o" [] _ empty_disk
      (all_open_folder _ out_without) eq_refl HS) as (d' & E & H); [repeat constructor|repeat constructor|discriminate|].
    exists d'. split; [exact E|]. intro c. rewrite H; [reflexivity|]. cbn. discriminate.
  - split; [unfold ksorted; cbn [kkeys map fst with_landmark]; repeat constructor; vm_compute; auto|].
    split; [cbn [kkeys map fst with_landmark]; repeat constructor; cbv; discriminate|].
    split; [reflexivity|]. vm_compute. auto.
Qed.
Print Assumptions C61_separated_refuted.

(** Its hypotheses: robot [l] is the first with something else than a pose. *)
Example C61_exception_example :
  of_robot 108 with_landmark = ([] ++ (sym 108 0, GPoint3 dzero dzero dzero) :: [])%list /\
  (forall c, (schar c < schar 108)%Z -> Forall (fun e => is_pose3 (snd e)) (of_robot c with_landmark)) /\
  match main_tracks (fun _ => true) 5 (fun _ => Some with_landmark) ["in.g2o"; "out"] empty_disk with
  | Throw d e => d "out/robot_l.csv" = Some "#time" /\ d "out/robot_a.csv" <> None
  | _ => False
  end.
Proof.
  split; [reflexivity|]. split.
  - intros c Hc. apply Forall_forall. intros [k v] Hin. apply filter_In in Hin. destruct Hin as [Hin Hk]. cbn [fst] in Hk. apply N.eqb_eq in Hk.
    destruct Hin as [E|[E|[E|[]]]]; injection E as <- <-; try exact I. subst c. vm_compute in Hc. discriminate Hc.
  - vm_compute. split; [reflexivity|discriminate].
Qed.

(** Too few arguments: a string is made of a null pointer. *)
Theorem C61_arguments : forall opens flushed load args d,
  (exists u, main_tracks opens flushed load args d = Undef u) -> (forall f vs, load f = Some vs -> ksorted vs) ->
  (List.length args < 2)%nat.
Proof.
  intros opens flushed load args d [u H] HL. destruct args as [|f [|g more]]; cbn; try lia. exfalso.
  pose proof (tracks_end opens flushed g load f more) as T. destruct (load f) as [vs|] eqn:E.
  - specialize (T vs d eq_refl (HL f vs E)). rewrite H in T. exact T.
  - cbn in H. rewrite E in H. discriminate H.
Qed.
Print Assumptions C61_arguments.

Theorem C61_arguments_refuted : exists opens flushed load args d u,
  (forall f vs, load f = Some vs -> ksorted vs) /\ main_tracks opens flushed load args d = Undef u.
Proof.
  exists (fun _ => true), 0%nat, (fun _ => None), ["in.g2o"], empty_disk, NullDeref. split; [discriminate|reflexivity].
Qed.
Print Assumptions C61_arguments_refuted.
