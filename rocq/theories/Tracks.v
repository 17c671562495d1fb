(** * Separating trajectories: examples/GenerateTrajectories.cpp

    Reads a g2o file and writes the poses of every robot to a file of their own (lines T:n).

    Simplifications: [gtsam::load3D] is an argument; a path can be opened for writing or not, once and
    for all; when an exception ends the program, the file that is open then holds the first [flushed]
    characters of what was written to it. *)
From Coq Require Import String Ascii.
From Verif Require Import Prelude Num NumText Keys KMap G2o Logs.
Local Open Scope string_scope.

Section Tracks.
Variable opens : string -> bool.
Variable flushed : nat.

(** [std::map<char, Values>] (T:26) is sorted by signed characters: entries are kept under the rank of
    their character. *)
Definition char_rank (c : N) : N := ((c + 128) mod 256)%N.
Definition rank_char (i : N) : N := ((i + 128) mod 256)%N.
Definition tracks := kmap gvalues.

(** [trajectories[prefix].insert(key, all_values.at(key))] (T:28-35). *)
Definition file_away (vs : gvalues) (k : key) (m : tracks) : outcome tracks unit :=
  let i := char_rank (chr k) in
  let t := match kfind i m with Some t => t | None => [] end in
  match kfind k vs with
  | None => Throw m (KeyDoesNotExist k)
  | Some v => if kmem k t then Throw m (KeyAlreadyExists k) else Ok (kset i (kset k v t) m) tt
  end.
Fixpoint separate (vs : gvalues) (ks : list key) (m : tracks) : outcome tracks unit :=
  match ks with
  | [] => Ok m tt
  | k :: ks' => obind (file_away vs k m) (fun m' _ => separate vs ks' m')
  end.

(** T:41-42 and 51-53. *)
Definition track_header : string :=
  "#timestamp, p_RS_R_x [m], p_RS_R_y [m], p_RS_R_z [m], q_RS_w [], q_RS_x [], q_RS_y [], q_RS_z [], " ++ newline.
Definition track_row (x y z qx qy qz qw : double) : string :=
  "0 , " ++ num_text x ++ "," ++ num_text y ++ "," ++ num_text z ++ "," ++ num_text qw ++ "," ++
  num_text qx ++ "," ++ num_text qy ++ "," ++ num_text qz ++ "," ++ newline.

(** The rows (T:45-54) written so far, and the exception that ended the loop, if any. *)
Fixpoint track_rows (t : gvalues) (ks : list key) : string * option exn :=
  match ks with
  | [] => ("", None)
  | k :: ks' =>
      match kfind k t with
      | Some (GPose3 x y z qx qy qz qw) =>
          let '(s, e) := track_rows t ks' in (track_row x y z qx qy qz qw ++ s, e)
      | Some _ => ("", Some (IncorrectType k))
      | None => ("", Some (KeyDoesNotExist k))
      end
  end.

Definition write_file (p t : string) (d : disk) : disk :=
  if opens (c_str p) then put (c_str p) t d else d.

(** T:38. *)
Definition track_path (folder : string) (c : N) : string :=
  folder ++ "/robot_" ++ String (ascii_of_N c) ".csv".

(** T:37-56. *)
Fixpoint write_tracks (folder : string) (m : tracks) (d : disk) : outcome disk unit :=
  match m with
  | [] => Ok d tt
  | (i, t) :: m' =>
      let p := track_path folder (rank_char i) in
      match track_rows t (kkeys t) with
      | (s, None) => write_tracks folder m' (write_file p (track_header ++ s) d)
      | (s, Some e) => Throw (write_file p (substring 0 flushed (track_header ++ s)) d) e
      end
  end.

(** [main] (T:20-57); [args] are [argv[1]], [argv[2]], …, followed by a null pointer, of which no
    [std::string] can be made (T:22-23). [load]: [None] if [load3D] throws. *)
Definition main_tracks (load : string -> option gvalues) (args : list string) (d : disk) : outcome disk unit :=
  match args with
  | file :: folder :: _ =>
      match load file with
      | None => Throw d InvalidArgument
      | Some vs =>
          match separate vs (kkeys vs) [] with
          | Ok m _ => write_tracks folder m d
          | Throw _ e => Throw d e
          | Undef u => Undef u
          end
      end
  | _ => Undef NullDeref
  end.
End Tracks.
