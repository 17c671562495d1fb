(** * Separated trajectories: proofs *)
From Coq Require Import String Ascii Sorted.
From Verif Require Import Prelude Num NumText Keys KMap TextSpec TextProofs G2o G2oSpec G2oProofs Logs LogsSpec LogsProofs Tracks TracksSpec.
Local Open Scope nat_scope.

(** ** Ranks and names *)

Lemma rank_of_char c : (c < 256)%N -> rank_char (char_rank c) = c.
Proof.
  intro H. unfold rank_char, char_rank. rewrite N.add_mod_idemp_l by discriminate.
  replace (c + 128 + 128)%N with (c + 1 * 256)%N by lia. rewrite N.mod_add by discriminate. apply N.mod_small; auto.
Qed.

Lemma char_of_rank c : (c < 256)%N -> char_rank (rank_char c) = c.
Proof. exact (rank_of_char c). Qed.

Lemma rank_lt c : (char_rank c < 256)%N.
Proof. apply N.mod_lt. discriminate. Qed.

Lemma rank_schar c : (c < 256)%N -> (Z.of_N (char_rank c) = schar c + 128)%Z.
Proof.
  intro H. unfold char_rank, schar. destruct (N.ltb_spec c 128).
  - rewrite N.mod_small by lia. lia.
  - replace (c + 128)%N with ((c - 128) + 1 * 256)%N by lia. rewrite N.mod_add by discriminate. rewrite N.mod_small by lia. lia.
Qed.

Lemma machine_chr k : machine_key k -> (chr k < 256)%N.
Proof.
  unfold machine_key, chr, idx_mod. intro H. apply N.div_lt_upper_bound; [discriminate|].
  change (2 ^ 56 * 256)%N with (2 ^ 64)%N. auto.
Qed.

Lemma ascii_inj a b : (a < 256)%N -> (b < 256)%N -> ascii_of_N a = ascii_of_N b -> a = b.
Proof. intros Ha Hb E. rewrite <- (N_ascii_embedding a Ha), <- (N_ascii_embedding b Hb), E. auto. Qed.

Lemma append_inj a b b' : append a b = append a b' -> b = b'.
Proof. induction a as [|c a IH]; cbn [append]; auto. intro E. injection E. auto. Qed.

Definition track_name (c : N) : string := append "robot_" (String (ascii_of_N c) ".csv").

Lemma track_path_name folder c : track_path folder c = append folder (String "/" (track_name c)).
Proof. reflexivity. Qed.

Lemma robot_file_path folder c : robot_file folder c = track_path folder c.
Proof. reflexivity. Qed.

Section Names.
Variable opens : string -> bool.
Variable folder : string.
Hypothesis HF : out_folder opens folder.

Lemma c_str_track c : c_str (track_path folder c) = append folder (String "/" (c_str (track_name c))).
Proof. rewrite track_path_name, c_str_app by apply (of_path _ _ HF). reflexivity. Qed.

Lemma c_str_track_inj a b : (a < 256)%N -> (b < 256)%N ->
  c_str (track_path folder a) = c_str (track_path folder b) -> a = b.
Proof.
  intros Ha Hb. rewrite !c_str_track. intro E. apply append_inj in E. injection E as E. clear HF.
  unfold track_name in E. cbn [append c_str] in E.
  repeat match type of E with context [Ascii.eqb ?x "000"] =>
    match x with ascii_of_N _ => fail 1 | _ => change (Ascii.eqb x "000") with false in E; cbn iota in E end end.
  apply ascii_inj; auto.
  destruct (Ascii.eqb_spec (ascii_of_N a) "000") as [Ea|Ea]; destruct (Ascii.eqb_spec (ascii_of_N b) "000") as [Eb|Eb];
    try congruence; try discriminate E.
Qed.

Lemma nameable_track c : nameable c -> c_str (track_path folder c) = robot_file folder c /\ opens (robot_file folder c) = true.
Proof.
  intros [Hc Hs]. assert (H0 : ascii_of_N c <> "000"%char).
  { intro E. change "000"%char with (ascii_of_N 0) in E. apply ascii_inj in E; lia. }
  assert (H1 : ascii_of_N c <> "/"%char).
  { intro E. change "/"%char with (ascii_of_N 47) in E. apply ascii_inj in E; [congruence|lia|lia]. }
  assert (X : without "000" (track_name c) /\ without "/" (track_name c)).
  { unfold track_name. cbn [append without]. repeat split; auto; discriminate. }
  split.
  - rewrite c_str_track, c_str_id by apply X. reflexivity.
  - apply (of_files _ _ HF (track_name c)); [discriminate|apply X|apply X].
Qed.
End Names.

(** ** Separation *)

Definition by_rank (i : N) (l : gvalues) : gvalues := filter (fun e => (char_rank (chr (fst e)) =? i)%N) l.
Definition found (l : gvalues) : option gvalues := match l with [] => None | _ => Some l end.
Definition filed (l : gvalues) (m : tracks) : Prop :=
  ksorted m /\ forall i, kfind i m = found (by_rank i l).

Lemma kset_snoc {V} k (v : V) t : Forall (fun x => (x < k)%N) (kkeys t) -> kset k v t = t ++ [(k, v)].
Proof.
  induction t as [|[k0 v0] t IH]; auto. cbn [kkeys map fst kset]. intro H. inversion H as [|? ? H1 H2]; subst.
  destruct (N.ltb_spec k k0); [lia|]. destruct (N.eqb_spec k k0); [lia|]. rewrite IH by exact H2. auto.
Qed.

Lemma kkeys_filter {V} (f : N * V -> bool) (P : N -> Prop) t : Forall P (kkeys t) -> Forall P (kkeys (filter f t)).
Proof.
  unfold kkeys. rewrite !Forall_forall. intros H x Hx. apply in_map_iff in Hx. destruct Hx as (e & <- & He).
  apply filter_In in He. apply H, in_map, He.
Qed.

Lemma sorted_split (a : gvalues) k v b : ksorted (a ++ (k, v) :: b) -> Forall (fun x => (x < k)%N) (kkeys a).
Proof.
  unfold ksorted, kkeys. rewrite map_app. cbn [map fst]. induction (map fst a) as [|x l IH]; cbn [app]; [constructor|].
  intro H. inversion H as [|? ? H1 H2]; subst. constructor; [|auto].
  rewrite Forall_forall in H2. apply H2. apply in_or_app. right. left. auto.
Qed.

Lemma by_rank_app i a b : by_rank i (a ++ b) = by_rank i a ++ by_rank i b.
Proof. apply filter_app. Qed.

Lemma separate_filed vs : ksorted vs -> forall b a m, vs = a ++ b -> filed a m ->
  exists m', separate vs (kkeys b) m = Ok m' tt /\ filed vs m'.
Proof.
  intro HS. induction b as [|[k v] b IH]; intros a m E [Hm Hf].
  - rewrite app_nil_r in E. subst. exists m. split; [reflexivity|split; auto].
  - cbn [kkeys map fst separate]. unfold file_away.
    rewrite (@kfind_sorted_In _ k v _ HS) by (rewrite E; apply in_or_app; right; left; auto).
    set (i := char_rank (chr k)) in *.
    assert (Et : match kfind i m with Some t => t | None => [] end = by_rank i a).
    { rewrite Hf. destruct (by_rank i a); auto. }
    rewrite Et.
    assert (Hlt : Forall (fun x => (x < k)%N) (kkeys (by_rank i a))).
    { apply kkeys_filter. apply (sorted_split a k v b). rewrite <- E. auto. }
    destruct (kmem k (by_rank i a)) eqn:Em.
    { exfalso. apply kmem_In in Em. rewrite Forall_forall in Hlt. apply Hlt in Em. lia. }
    cbn [obind]. apply (IH (a ++ [(k, v)])).
    + rewrite <- app_assoc. auto.
    + split; [apply ksorted_kset; auto|]. intro j. rewrite kfind_kset, by_rank_app.
      unfold by_rank at 3. cbn [filter fst]. fold i. rewrite kset_snoc by auto.
      destruct (N.eqb_spec j i) as [->|Hj].
      * rewrite N.eqb_refl. destruct (by_rank i a); reflexivity.
      * destruct (N.eqb_spec i j); [congruence|]. rewrite app_nil_r. apply Hf.
Qed.

Lemma separate_ok vs : ksorted vs -> exists m, separate vs (kkeys vs) [] = Ok m tt /\ filed vs m.
Proof.
  intro HS. apply (separate_filed vs HS vs [] []); auto. split; [constructor|]. intro i. reflexivity.
Qed.

Lemma by_rank_robot vs c : Forall machine_key (kkeys vs) -> (c < 256)%N -> by_rank (char_rank c) vs = of_robot c vs.
Proof.
  intros HM Hc. unfold by_rank, of_robot. apply filter_ext_in. intros [k v] Hin. cbn [fst].
  rewrite Forall_forall in HM. assert (Hk : (chr k < 256)%N).
  { apply machine_chr, HM. change k with (fst (k, v)). apply in_map; auto. }
  destruct (N.eqb_spec (chr k) c) as [->|Hne]; [apply N.eqb_refl|]. apply N.eqb_neq. intro E. apply Hne.
  rewrite <- (rank_of_char _ Hk), <- (rank_of_char _ Hc), E. auto.
Qed.

(** ** Rows *)

Definition row_text (v : gvalue) : string :=
  match v with GPose3 x y z qx qy qz qw => track_row x y z qx qy qz qw | _ => EmptyString end.
Definition rows_text (t : gvalues) : string := fold_right append EmptyString (map (fun e => row_text (snd e)) t).

Lemma track_rows_good t : ksorted t -> forall b a, t = a ++ b -> Forall (fun e => is_pose3 (snd e)) b ->
  track_rows t (kkeys b) = (rows_text b, None).
Proof.
  intro HS. induction b as [|[k v] b IH]; intros a E HP; auto. inversion HP as [|? ? Hv HP']; subst.
  cbn [kkeys map fst track_rows]. rewrite (@kfind_sorted_In _ k v _ HS) by (apply in_or_app; right; left; auto).
  cbn [snd] in Hv. destruct v; try contradiction.
  change (map fst b) with (kkeys b). rewrite (IH (a ++ [(k, GPose3 x y z qx qy qz qw)])); auto.
  rewrite <- app_assoc. auto.
Qed.

Lemma track_rows_bad t : ksorted t -> forall b a k v c, t = a ++ b ++ (k, v) :: c -> Forall (fun e => is_pose3 (snd e)) b ->
  ~ is_pose3 v -> track_rows t (kkeys (b ++ (k, v) :: c)) = (rows_text b, Some (IncorrectType k)).
Proof.
  intro HS. induction b as [|[k0 v0] b IH]; intros a k v c E HP Hv.
  - cbn [app kkeys map fst track_rows]. rewrite (@kfind_sorted_In _ k v _ HS) by (rewrite E; apply in_or_app; right; left; auto).
    destruct v; try reflexivity. elim Hv. exact I.
  - inversion_clear HP as [|? ? Hv0 HP'].
    cbn [app kkeys map fst track_rows]. rewrite (@kfind_sorted_In _ k0 v0 _ HS) by (rewrite E; apply in_or_app; right; left; auto).
    cbn [snd] in Hv0. destruct v0; try contradiction.
    change (map fst (b ++ (k, v) :: c)) with (kkeys (b ++ (k, v) :: c)).
    rewrite (IH (a ++ [(k0, GPose3 x y z qx qy qz qw)]) k v c); auto.
    rewrite <- app_assoc. exact E.
Qed.

(** ** Reading the file *)

Lemma lacks_comma_num x : lacks "," (num_text x) = true.
Proof.
  destruct x as [s|s| |s m e]; [destruct s; reflexivity|destruct s; reflexivity|reflexivity|].
  rewrite num_text_finite, lacks_app. replace (lacks "," (sign_text s)) with true by (destruct s; reflexivity).
  cbn [andb]. unfold body. destruct (six (num_of m e) (den_of e)) as [d z].
  pose proof (digits_digit 6 d) as H.
  assert (F : forall l, Forall is_digit l -> lacks "," (frac_text l) = true).
  { intros l Hl. destruct l as [|y l]; auto. unfold frac_text. cbn [lacks]. rewrite lacks_digits; auto. }
  destruct ((-4 <=? z) && (z <? 6))%Z; [destruct (0 <=? z)%Z|].
  - destruct (digits_sub (Z.to_nat (z + 1)) _ H). rewrite lacks_app, lacks_digits, F; auto. apply strip_digit; auto.
  - rewrite lacks_app, lacks_digits; [|reflexivity|repeat constructor; lia]. apply F. apply Forall_app. split; [|apply strip_digit; auto].
    apply Forall_forall. intros y Hy. apply repeat_spec in Hy. subst. unfold is_digit. lia.
  - destruct (digits_sub 1 _ H). rewrite !lacks_app, lacks_digits, F; auto; [|apply strip_digit; auto].
    unfold exp_text. cbn [lacks]. rewrite lacks_digits by (auto; apply digits_digit). destruct (z <? 0)%Z; auto.
Qed.

Definition row_fields (v : gvalue) : list string :=
  match v with
  | GPose3 x y z qx qy qz qw =>
      ["0 "%string; String " " (num_text x); num_text y; num_text z; num_text qw; num_text qx; num_text qy; num_text qz; EmptyString]
  | _ => []
  end.
Definition head_fields : list string :=
  ["#timestamp"; " p_RS_R_x [m]"; " p_RS_R_y [m]"; " p_RS_R_z [m]"; " q_RS_w []"; " q_RS_x []"; " q_RS_y []"; " q_RS_z []"; " "]%string.

Lemma row_text_fields v : is_pose3 v -> row_text v = append (String.concat "," (row_fields v)) newline.
Proof.
  destruct v; intro H; try contradiction. cbn [row_text row_fields String.concat]. unfold track_row.
  rewrite ?append_assoc. reflexivity.
Qed.

Lemma file_table t : Forall (fun e => is_pose3 (snd e)) t ->
  append track_header (rows_text t) = table_text "," (head_fields :: map (fun e => row_fields (snd e)) t).
Proof.
  intro H. unfold table_text. cbn [map fold_right]. f_equal. unfold rows_text. f_equal. rewrite map_map. apply map_ext_in.
  intros e He. rewrite Forall_forall in H. apply row_text_fields; auto.
Qed.

Lemma lacks_lf_num x : lacks "010" (num_text x) = true.
Proof. apply (clean_lacks _ (clean_num x)). Qed.

Lemma row_fields_ok v : is_pose3 v -> fields "," (row_fields v).
Proof.
  destruct v; intro H; try contradiction. cbn [row_fields]. split; [discriminate|].
  cbn [forallb lacks]. rewrite !lacks_comma_num, !lacks_lf_num. auto.
Qed.

Lemma squeeze_clean w : clean w = true -> squeeze w = w.
Proof.
  induction w as [|c w IH]; auto. cbn [clean squeeze]. unfold clean_char. destruct (Ascii.eqb c " "); cbn [negb andb]; [discriminate|].
  intro H. apply andb_true_iff in H. rewrite IH; tauto.
Qed.

Lemma squeeze_row x y z qx qy qz qw : map squeeze (row_fields (GPose3 x y z qx qy qz qw)) =
  ("0" :: map num_text [x; y; z; qw; qx; qy; qz] ++ [""])%string.
Proof.
  assert (N : forall u, squeeze (num_text u) = num_text u) by (intro u; apply squeeze_clean, clean_num).
  cbn [row_fields map app]. change (squeeze (String " " (num_text x))) with (squeeze (num_text x)). rewrite !N. reflexivity.
Qed.

Lemma track_of_rows t : Forall (fun e => is_pose3 (snd e)) t -> track_of (append track_header (rows_text t)) t.
Proof.
  intro H. unfold track_of, read_csv. rewrite file_table, read_table_text; auto; [|discriminate|].
  - cbn [map]. eexists. split; [reflexivity|]. rewrite map_map.
    induction H as [|[k v] t Hv Ht IH]; cbn [map snd]; constructor; auto.
    cbn [snd] in Hv. destruct v; try contradiction. unfold row_of. cbn [snd]. rewrite squeeze_row.
    eexists. split; [reflexivity|]. apply shows_nums.
  - constructor; [repeat split; discriminate|]. rewrite Forall_map. eapply Forall_impl; [|exact H]. intros e He. apply row_fields_ok; auto.
Qed.

(** ** Files *)

Section Files.
Variable opens : string -> bool.
Variable flushed : nat.
Variable folder : string.
Hypothesis HF : out_folder opens folder.

Definition file_of (i : N) : string := c_str (track_path folder (rank_char i)).
Definition all_poses (t : gvalues) : Prop := Forall (fun e => is_pose3 (snd e)) t.

Lemma file_of_inj i j : (i < 256)%N -> (j < 256)%N -> file_of i = file_of j -> i = j.
Proof.
  intros Hi Hj E. apply (c_str_track_inj opens folder HF) in E; try apply N.mod_lt; try discriminate.
  rewrite <- (char_of_rank i Hi), <- (char_of_rank j Hj), E. auto.
Qed.

Lemma write_file_at p t d q : write_file opens p t d q = if String.eqb q (c_str p) && opens (c_str p) then Some t else d q.
Proof. unfold write_file, put. destruct (opens (c_str p)); [rewrite andb_true_r; auto|rewrite andb_false_r; auto]. Qed.

(** Complete tracks: all files written. *)
Lemma write_good m : ksorted m -> Forall (fun i => (i < 256)%N) (kkeys m) ->
  Forall (fun e => ksorted (snd e) /\ all_poses (snd e)) m -> forall d rest,
  exists d', write_tracks opens flushed folder (m ++ rest) d = write_tracks opens flushed folder rest d' /\
    (forall i t, In (i, t) m -> opens (file_of i) = true -> d' (file_of i) = Some (append track_header (rows_text t))) /\
    (forall q, (forall i, In i (kkeys m) -> opens (file_of i) = true -> q <> file_of i) -> d' q = d q).
Proof.
  induction m as [|[i t] m IH]; intros HS HL HG d rest.
  - exists d. split; [reflexivity|]. split; [intros ? ? []|auto].
  - inversion HG as [|? ? [Ht Hp] HG']; subst. cbn [kkeys map fst] in HL. inversion HL as [|? ? Hi HL']; subst.
    unfold ksorted in HS. cbn [kkeys map fst] in HS. inversion HS as [|? ? HS' Hlt]; subst.
    cbn [app write_tracks]. cbn [snd] in Ht, Hp. rewrite (track_rows_good t Ht t []); auto.
    destruct (IH HS' HL' HG' (write_file opens (track_path folder (rank_char i)) (append track_header (rows_text t)) d) rest)
      as (d' & E & Hw & Hq). exists d'. split; [exact E|]. split.
    + intros j u [E'|Hin] Ho.
      * inversion E'; subst. rewrite Hq.
        -- rewrite write_file_at. fold (file_of j). rewrite String.eqb_refl, Ho. auto.
        -- intros i' Hi' _ Ef. apply file_of_inj in Ef; auto.
           ++ rewrite Forall_forall in Hlt. apply Hlt in Hi'. lia.
           ++ rewrite Forall_forall in HL'. apply HL'. exact Hi'.
      * auto.
    + intros q Hne. rewrite Hq.
      * rewrite write_file_at. fold (file_of i). destruct (String.eqb_spec q (file_of i)) as [->|_]; auto.
        destruct (opens (file_of i)) eqn:Eo; auto. elim (Hne i); auto. left; auto.
      * intros j Hj. apply Hne. right; auto.
Qed.
End Files.

(** ** The program *)

Lemma is_pose3_dec v : {is_pose3 v} + {~ is_pose3 v}.
Proof. destruct v; cbn; auto. Qed.

Lemma first_bad {A} (P : A -> Prop) (D : forall x, {P x} + {~ P x}) l :
  Forall P l \/ exists a x b, l = a ++ x :: b /\ Forall P a /\ ~ P x.
Proof.
  induction l as [|y l IH]; [left; constructor|]. destruct (D y) as [Hy|Hy].
  - destruct IH as [IH|(a & x & b & -> & Ha & Hx)]; [left; constructor; auto|]. right. exists (y :: a), x, b. auto.
  - right. exists [], y, l. auto.
Qed.

Lemma all_poses_dec t : {all_poses t} + {~ all_poses t}.
Proof. apply Forall_dec. intros [k v]. apply is_pose3_dec. Qed.

Lemma ksorted_filter {V} (f : N * V -> bool) t : ksorted t -> ksorted (filter f t).
Proof.
  unfold ksorted. induction t as [|[k v] t IH]; auto. cbn [kkeys map fst]. intro H. inversion H as [|? ? H1 H2]; subst.
  cbn [filter]. destruct (f (k, v)); auto. cbn [map fst]. constructor; auto. apply (kkeys_filter f _ t H2).
Qed.

Section Main.
Variable opens : string -> bool.
Variable flushed : nat.
Variable folder : string.
Hypothesis HF : out_folder opens folder.
Variable vs : gvalues.
Hypothesis HS : ksorted vs.
Hypothesis HM : Forall machine_key (kkeys vs).

Variable m : tracks.
Hypothesis Hfiled : filed vs m.

Lemma track_entry i t : In (i, t) m -> t = by_rank i vs /\ t <> [] /\ (i < 256)%N.
Proof.
  intro Hin. destruct Hfiled as [Hs Hf]. pose proof (kfind_sorted_In _ _ Hs Hin) as E. rewrite Hf in E.
  destruct (by_rank i vs) as [|[k v] l] eqn:Eb; [discriminate E|]. cbn [found] in E. injection E as <-.
  split; [auto|]. split; [discriminate|].
  assert (Hin' : In (k, v) (by_rank i vs)) by (rewrite Eb; left; auto).
  apply filter_In in Hin'. destruct Hin' as [_ Hr]. apply N.eqb_eq in Hr. rewrite <- Hr. apply rank_lt.
Qed.

Lemma track_robot i t : In (i, t) m -> t = of_robot (rank_char i) vs /\ ksorted t.
Proof.
  intro Hin. destruct (track_entry i t Hin) as (E & _ & Hi). split.
  - rewrite <- by_rank_robot; auto; [|apply N.mod_lt; discriminate]. rewrite char_of_rank; auto.
  - rewrite E. apply ksorted_filter; auto.
Qed.

Lemma robot_track c : (c < 256)%N -> of_robot c vs <> [] -> In (char_rank c, of_robot c vs) m.
Proof.
  intros Hc Hne. destruct Hfiled as [_ Hf]. apply kfind_In. rewrite Hf, by_rank_robot; auto.
  destruct (of_robot c vs); auto. congruence.
Qed.

Lemma ranks_lt : Forall (fun i => (i < 256)%N) (kkeys m).
Proof.
  apply Forall_forall. intros i Hi. unfold kkeys in Hi. apply in_map_iff in Hi. destruct Hi as ([j t] & <- & Hi).
  apply (track_entry j t Hi).
Qed.

Lemma robot_exists k : In k (kkeys vs) -> of_robot (chr k) vs <> [].
Proof.
  intros Hk E. unfold kkeys in Hk. apply in_map_iff in Hk. destruct Hk as ([k' v] & <- & Hk). cbn [fst] in *.
  assert (X : In (k', v) (of_robot (chr k') vs)) by (apply filter_In; split; auto; apply N.eqb_refl).
  rewrite E in X. destruct X.
Qed.

Lemma robot_small c : of_robot c vs <> [] -> (c < 256)%N /\ exists k, In k (kkeys vs) /\ chr k = c.
Proof.
  intro Hne. destruct (of_robot c vs) as [|[k v] l] eqn:E; [congruence|].
  assert (Hin : In (k, v) (of_robot c vs)) by (rewrite E; left; auto). apply filter_In in Hin. destruct Hin as [Hin Hc].
  cbn [fst] in Hc. apply N.eqb_eq in Hc. subst c. assert (Hk : In k (kkeys vs)) by (change k with (fst (k, v)); apply in_map; auto).
  split; [|eauto]. apply machine_chr. rewrite Forall_forall in HM. auto.
Qed.

Lemma sorted_app_l (a b : tracks) : ksorted (a ++ b) -> ksorted a.
Proof.
  unfold ksorted, kkeys. rewrite map_app. induction (map fst a) as [|x l IH]; cbn [app]; [constructor|].
  intro H. inversion H as [|? ? H1 H2]; subst. constructor; auto.
  rewrite Forall_forall in *. intros y Hy. apply H2. apply in_or_app; auto.
Qed.

Lemma sorted_app_lt (a : tracks) i t b : ksorted (a ++ (i, t) :: b) ->
  Forall (fun x => (x < i)%N) (kkeys a) /\ Forall (fun x => (i < x)%N) (kkeys b).
Proof.
  unfold ksorted, kkeys. rewrite map_app. cbn [map fst]. induction (map fst a) as [|x l IH]; cbn [app]; intro H.
  - inversion H; subst. split; [constructor|auto].
  - inversion H as [|? ? H1 H2]; subst. destruct (IH H1). split; auto. constructor; auto.
    rewrite Forall_forall in H2. apply H2. apply in_or_app. right. left. auto.
Qed.
End Main.

Theorem tracks_complete opens flushed folder load file more vs d :
  out_folder opens folder -> load file = Some vs -> ksorted vs -> Forall machine_key (kkeys vs) ->
  Forall (fun k => nameable (chr k)) (kkeys vs) -> Forall (fun e => is_pose3 (snd e)) vs ->
  exists d', main_tracks opens flushed load (file :: folder :: more) d = Ok d' tt /\
    (forall c, of_robot c vs <> [] -> exists text, d' (robot_file folder c) = Some text /\ track_of text (of_robot c vs)) /\
    (forall q, (forall c, of_robot c vs <> [] -> q <> robot_file folder c) -> d' q = d q).
Proof.
  intros HF HL HS HM HN HP. unfold main_tracks. rewrite HL. destruct (separate_ok vs HS) as (m & -> & Hm).
  assert (HG : Forall (fun e => ksorted (snd e) /\ all_poses (snd e)) m).
  { apply Forall_forall. intros [i t] Hin. destruct (track_robot vs HS HM m Hm i t Hin) as [Et Hs]. split; [exact Hs|].
    cbn [snd]. rewrite Et. unfold all_poses, of_robot. rewrite Forall_forall in *. intros e He. apply filter_In in He. apply HP, He. }
  destruct (write_good opens flushed folder HF m (proj1 Hm) (ranks_lt vs m Hm) HG d []) as (d' & E & Hw & Hq).
  rewrite app_nil_r in E. cbn [write_tracks] in E. exists d'. split; [exact E|].
  assert (Hfile : forall c, of_robot c vs <> [] -> file_of folder (char_rank c) = robot_file folder c /\ opens (robot_file folder c) = true).
  { intros c Hc. destruct (robot_small vs HM c Hc) as (Hl & k & Hk & <-). rewrite Forall_forall in HN.
    unfold file_of. rewrite rank_of_char by auto. apply (nameable_track opens folder HF). auto. }
  split.
  - intros c Hc. destruct (Hfile c Hc) as [Ef Eo]. destruct (robot_small vs HM c Hc) as [Hl _].
    exists (append track_header (rows_text (of_robot c vs))). split.
    + rewrite <- Ef in *. apply Hw; auto. apply (robot_track vs HM m Hm); auto.
    + apply track_of_rows. rewrite Forall_forall in *. intros e He. apply filter_In in He. apply HP, He.
  - intros q Hne. apply Hq. intros i Hi Ho ->. unfold kkeys in Hi. apply in_map_iff in Hi. destruct Hi as ([j t] & <- & Hi). cbn [fst] in *.
    destruct (track_entry vs m Hm j t Hi) as (_ & Hnn & Hj). destruct (track_robot vs HS HM m Hm j t Hi) as [Et _].
    assert (Hc : of_robot (rank_char j) vs <> []) by (rewrite <- Et; auto).
    apply (Hne (rank_char j) Hc). destruct (Hfile _ Hc) as [Ef _]. rewrite char_of_rank in Ef; auto.
Qed.

Lemma substring_prefix s : forall n, String.prefix (substring 0 n s) s = true.
Proof.
  induction s as [|c s IH]; intros [|n]; cbn [substring]; auto.
  cbn [String.prefix]. destruct (ascii_dec c c); [apply IH|congruence].
Qed.

Theorem tracks_exception opens flushed folder load file more vs d r g k v rest :
  out_folder opens folder -> load file = Some vs -> ksorted vs -> Forall machine_key (kkeys vs) ->
  Forall (fun k => nameable (chr k)) (kkeys vs) ->
  of_robot r vs = g ++ (k, v) :: rest -> Forall (fun e => is_pose3 (snd e)) g -> ~ is_pose3 v ->
  (forall c, (schar c < schar r)%Z -> Forall (fun e => is_pose3 (snd e)) (of_robot c vs)) ->
  exists d', main_tracks opens flushed load (file :: folder :: more) d = Throw d' (IncorrectType k) /\
    (forall c, (schar c < schar r)%Z -> of_robot c vs <> [] ->
       exists text, d' (robot_file folder c) = Some text /\ track_of text (of_robot c vs)) /\
    (exists text full, d' (robot_file folder r) = Some text /\ String.prefix text full = true /\ track_of full g) /\
    (forall q, (forall c, (schar c <= schar r)%Z -> of_robot c vs <> [] -> q <> robot_file folder c) -> d' q = d q).
Proof.
  intros HF HL HS HM HN Er Hg Hv Hbefore. unfold main_tracks. rewrite HL. destruct (separate_ok vs HS) as (m & -> & Hm).
  assert (Hr : of_robot r vs <> []) by (rewrite Er; destruct g; discriminate).
  destruct (robot_small vs HM r Hr) as [Hrl _].
  pose proof (robot_track vs HM m Hm r Hrl Hr) as Hin. apply in_split in Hin. destruct Hin as (m1 & m2 & Em).
  pose proof (proj1 Hm) as Hsm. rewrite Em in Hsm. destruct (sorted_app_lt m1 _ _ m2 Hsm) as [Hlt Hgt].
  assert (Hfile : forall c, of_robot c vs <> [] -> file_of folder (char_rank c) = robot_file folder c /\ opens (robot_file folder c) = true).
  { intros c Hc. destruct (robot_small vs HM c Hc) as (Hl & k' & Hk & <-). rewrite Forall_forall in HN.
    unfold file_of. rewrite rank_of_char by auto. apply (nameable_track opens folder HF). auto. }
  assert (Hm1 : forall i t, In (i, t) m1 -> In (i, t) m) by (intros i t Hi; rewrite Em; apply in_or_app; auto).
  assert (Hs1 : forall i t, In (i, t) m1 -> (schar (rank_char i) < schar r)%Z).
  { intros i t Hi. rewrite Forall_forall in Hlt. assert (X : (i < char_rank r)%N) by (apply Hlt; change i with (fst (i, t)); apply in_map; auto).
    destruct (track_entry vs m Hm i t (Hm1 _ _ Hi)) as (_ & _ & Hil).
    pose proof (rank_schar r Hrl). pose proof (rank_schar (rank_char i) ltac:(apply N.mod_lt; discriminate)) as Y.
    rewrite char_of_rank in Y by auto. lia. }
  assert (HG : Forall (fun e => ksorted (snd e) /\ all_poses (snd e)) m1).
  { apply Forall_forall. intros [i t] Hi. destruct (track_robot vs HS HM m Hm i t (Hm1 _ _ Hi)) as [Et Hs]. split; [exact Hs|].
    cbn [snd]. rewrite Et. apply Hbefore. apply (Hs1 i t Hi). }
  assert (HR1 : Forall (fun i => (i < 256)%N) (kkeys m1)).
  { pose proof (ranks_lt vs m Hm) as X. rewrite Em in X. unfold kkeys in *. rewrite map_app in X. apply Forall_app in X. apply X. }
  destruct (write_good opens flushed folder HF m1 (sorted_app_l _ _ Hsm) HR1 HG d ((char_rank r, of_robot r vs) :: m2)) as (d1 & E & Hw & Hq).
  assert (E' : write_tracks opens flushed folder m d = write_tracks opens flushed folder ((char_rank r, of_robot r vs) :: m2) d1) by (rewrite Em; exact E).
  cbv beta iota. rewrite E'. cbn [write_tracks]. rewrite rank_of_char by auto.
  assert (Hsr : ksorted (of_robot r vs)) by (apply ksorted_filter; auto).
  rewrite Er in Hsr. rewrite Er. rewrite (track_rows_bad _ Hsr g [] k v rest); auto.
  eexists. split; [reflexivity|].
  destruct (Hfile r Hr) as [Efr Eor].
  assert (Epr : c_str (track_path folder r) = robot_file folder r).
  { rewrite <- Efr. unfold file_of. rewrite rank_of_char; auto. }
  split; [|split].
  - intros c Hc Hne. destruct (robot_small vs HM c Hne) as [Hcl _]. destruct (Hfile c Hne) as [Ef Eo].
    exists (append track_header (rows_text (of_robot c vs))). split; [|apply track_of_rows; auto].
    rewrite write_file_at, Epr. destruct (String.eqb_spec (robot_file folder c) (robot_file folder r)) as [Ex|_].
    { exfalso. rewrite <- Ef, <- Efr in Ex. apply (file_of_inj opens folder HF) in Ex; try apply rank_lt.
      assert (c = r) by (rewrite <- (rank_of_char c), <- (rank_of_char r), Ex; auto). subst. lia. }
    cbn [andb]. rewrite <- Ef in *. apply Hw; auto.
    pose proof (robot_track vs HM m Hm c Hcl Hne) as X. rewrite Em in X. apply in_app_or in X. destruct X as [X|[X|X]]; auto; exfalso.
    + injection X as X _. assert (c = r) by (rewrite <- (rank_of_char c), <- (rank_of_char r), X; auto). subst. lia.
    + rewrite Forall_forall in Hgt. assert (Y : (char_rank r < char_rank c)%N) by (apply Hgt; change (char_rank c) with (fst (char_rank c, of_robot c vs)); apply in_map; auto).
      pose proof (rank_schar r Hrl). pose proof (rank_schar c Hcl). lia.
  - exists (substring 0 flushed (append track_header (rows_text g))), (append track_header (rows_text g)). split; [|split].
    + rewrite write_file_at, Epr, String.eqb_refl, Eor. auto.
    + apply substring_prefix.
    + apply track_of_rows; auto.
  - intros q Hne. rewrite write_file_at, Epr. destruct (String.eqb_spec q (robot_file folder r)) as [Ex|_].
    { exfalso. apply (Hne r); auto. lia. }
    cbn [andb]. apply Hq. intros i Hi Ho ->. unfold kkeys in Hi. apply in_map_iff in Hi. destruct Hi as ([j t] & <- & Hi). cbn [fst] in *.
    destruct (track_entry vs m Hm j t (Hm1 _ _ Hi)) as (_ & Hnn & Hj). destruct (track_robot vs HS HM m Hm j t (Hm1 _ _ Hi)) as [Et _].
    assert (Hc : of_robot (rank_char j) vs <> []) by (rewrite <- Et; auto).
    apply (Hne (rank_char j)); auto; [pose proof (Hs1 _ _ Hi); lia|]. destruct (Hfile _ Hc) as [Ef _]. rewrite char_of_rank in Ef; auto.
Qed.

(** Which way a run ends. *)
Theorem tracks_end opens flushed folder load file more vs d :
  load file = Some vs -> ksorted vs ->
  match main_tracks opens flushed load (file :: folder :: more) d with
  | Ok _ _ => Forall (fun e => is_pose3 (snd e)) vs
  | Throw _ e => exists k v, e = IncorrectType k /\ In (k, v) vs /\ ~ is_pose3 v
  | Undef _ => False
  end.
Proof.
  intros HL HS. unfold main_tracks. rewrite HL. destruct (separate_ok vs HS) as (m & -> & Hm).
  assert (HT : Forall (fun e => ksorted (snd e) /\ snd e = by_rank (fst e) vs) m).
  { apply Forall_forall. intros [i t] Hin. destruct (track_entry vs m Hm i t Hin) as (-> & _). split; auto. apply ksorted_filter; auto. }
  assert (HA : forall k v, In (k, v) vs -> In (char_rank (chr k)) (kkeys m)).
  { intros k v Hin. apply kmem_In. unfold kmem. rewrite (proj2 Hm). destruct (by_rank (char_rank (chr k)) vs) eqn:E; auto.
    exfalso. assert (X : In (k, v) (by_rank (char_rank (chr k)) vs)) by (apply filter_In; split; auto; apply N.eqb_refl).
    rewrite E in X. destruct X. }
  assert (G : forall l d0, incl l m -> match write_tracks opens flushed folder l d0 with
    | Ok _ _ => Forall (fun e => all_poses (snd e)) l
    | Throw _ e => exists k v, e = IncorrectType k /\ In (k, v) vs /\ ~ is_pose3 v
    | Undef _ => False end).
  { induction l as [|[i t] l IH]; intros d0 Hl; cbn [write_tracks]; [constructor|].
    rewrite Forall_forall in HT. destruct (HT (i, t) (Hl _ (or_introl eq_refl))) as [Hs Et]. cbn [fst snd] in *.
    destruct (first_bad (fun e : key * gvalue => is_pose3 (snd e)) (fun e => is_pose3_dec (snd e)) t) as [Hg|(a & [k v] & b & E & Ha & Hb)].
    - rewrite (track_rows_good t Hs t []); auto.
      specialize (IH (write_file opens (track_path folder (rank_char i)) (append track_header (rows_text t)) d0) (fun x Hx => Hl x (or_intror Hx))).
      destruct (write_tracks _ _ _ _ _); auto.
    - assert (X : track_rows t (kkeys t) = (rows_text a, Some (IncorrectType k))).
      { transitivity (track_rows t (kkeys (a ++ (k, v) :: b))); [f_equal; f_equal; exact E|]. exact (track_rows_bad t Hs a [] k v b E Ha Hb). }
      rewrite X. clear X. exists k, v. split; [auto|]. split; [|exact Hb].
      assert (X : In (k, v) t) by (rewrite E; apply in_or_app; right; left; auto). rewrite Et in X. apply filter_In in X. apply X. }
  specialize (G m d (incl_refl m)). destruct (write_tracks opens flushed folder m d); auto.
  apply Forall_forall. intros [k v] Hin. pose proof (HA k v Hin) as Hi. unfold kkeys in Hi. apply in_map_iff in Hi.
  destruct Hi as ([i t] & Ei & Hi). cbn [fst] in Ei. rewrite Forall_forall in G. specialize (G _ Hi). cbn [snd] in G.
  rewrite Forall_forall in HT. destruct (HT _ Hi) as [_ Et]. cbn [fst snd] in Et. unfold all_poses in G. rewrite Forall_forall in G.
  apply (G (k, v)). rewrite Et, Ei. apply filter_In. split; auto. apply N.eqb_refl.
Qed.

(** Keys that are plain numbers. *)
Theorem tracks_plain opens flushed folder load file more vs d :
  out_folder opens folder -> load file = Some vs -> ksorted vs -> Forall plain_key (kkeys vs) ->
  Forall (fun e => is_pose3 (snd e)) vs -> vs <> [] ->
  exists d', main_tracks opens flushed load (file :: folder :: more) d = Ok d' tt /\
    forall q, q <> append folder "/robot_" -> d' q = d q.
Proof.
  intros HF HL HS HK HP Hne. unfold main_tracks. rewrite HL. destruct (separate_ok vs HS) as (m & -> & Hm).
  assert (H0 : forall i, by_rank i vs <> [] -> i = char_rank 0).
  { intros i Hi. destruct (by_rank i vs) as [|[k v] l] eqn:E; [congruence|].
    assert (X : In (k, v) (by_rank i vs)) by (rewrite E; left; auto). apply filter_In in X. destruct X as [X Y].
    cbn [fst] in Y. apply N.eqb_eq in Y. subst i. rewrite Forall_forall in HK.
    assert (Z : plain_key k) by (apply HK; change k with (fst (k, v)); apply in_map; auto).
    unfold chr, plain_key, idx_mod in *. rewrite N.div_small; auto. }
  assert (HG : Forall (fun e => ksorted (snd e) /\ all_poses (snd e)) m).
  { apply Forall_forall. intros [i t] Hin. destruct (track_entry vs m Hm i t Hin) as (-> & _). split; [apply ksorted_filter; auto|].
    unfold all_poses. rewrite Forall_forall in *. intros e He. apply filter_In in He. apply HP, He. }
  destruct (write_good opens flushed folder HF m (proj1 Hm) (ranks_lt vs m Hm) HG d []) as (d' & E & Hw & Hq).
  rewrite app_nil_r in E. cbn [write_tracks] in E. exists d'. split; [exact E|].
  intros q Hne'. apply Hq. intros i Hi _ ->. apply Hne'. unfold kkeys in Hi. apply in_map_iff in Hi. destruct Hi as ([j t] & <- & Hi). cbn [fst].
  destruct (track_entry vs m Hm j t Hi) as (-> & X & _). rewrite (H0 j X). unfold file_of. rewrite rank_of_char by reflexivity.
  rewrite (c_str_track opens folder HF). reflexivity.
Qed.
