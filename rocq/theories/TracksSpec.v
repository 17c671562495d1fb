(** * What separated trajectories should look like: specification *)
From Coq Require Import String Ascii.
From Verif Require Import Prelude Num Keys KMap TextSpec G2o G2oSpec Logs LogsSpec.
Local Open Scope string_scope.

(** A folder of an ordinary file system (compare [folder] in [LogsSpec.v]). *)
Record out_folder (opens : string -> bool) (path : string) : Prop := {
  of_path : without "000" path;
  of_files : forall n, n <> EmptyString -> without "000" n -> without "/" n -> opens (path ++ "/" ++ n) = true }.

(** The file of a robot. *)
Definition robot_file (folder : string) (c : N) : string :=
  folder ++ "/" ++ "robot_" ++ String (ascii_of_N c) ".csv".

(** The variables of a robot, in the order of their keys. *)
Definition of_robot (c : N) (vs : gvalues) : gvalues := filter (fun e => (chr (fst e) =? c)%N) vs.
Definition is_pose3 (v : gvalue) : Prop := match v with GPose3 _ _ _ _ _ _ _ => True | _ => False end.

(** Fields of a comma separated table, blanks around them ignored. *)
Fixpoint squeeze (s : string) : string :=
  match s with
  | EmptyString => EmptyString
  | String c s' => if Ascii.eqb c " " then squeeze s' else String c (squeeze s')
  end.
Definition read_csv (text : string) : list (list string) :=
  map (map squeeze) (read_table "," text).

(** Time, position, quaternion with the real part first; every line ends with a comma. *)
Definition csv_names : list string :=
  ["#timestamp"; "p_RS_R_x[m]"; "p_RS_R_y[m]"; "p_RS_R_z[m]"; "q_RS_w[]"; "q_RS_x[]"; "q_RS_y[]"; "q_RS_z[]"; ""].
Definition row_of (l : list string) (e : key * gvalue) : Prop :=
  match snd e with
  | GPose3 x y z qx qy qz qw =>
      exists ws, l = "0" :: ws ++ [""] /\ Forall2 shows ws [x; y; z; qw; qx; qy; qz]
  | _ => False
  end.
Definition track_of (text : string) (es : gvalues) : Prop :=
  exists rows, read_csv text = csv_names :: rows /\ Forall2 row_of rows es.
