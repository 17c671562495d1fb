(** * The log files: proofs *)
From Coq Require Import String Ascii QArith Permutation.
From Verif Require Import Prelude Num NumText Keys KMap UMap Geometry Factors Clique Pcm Solver TextSpec TextProofs G2o G2oSpec G2oProofs
  HistSpec StoreSpec StoreThms UpdateProofs Logs LogsSpec.
Local Open Scope nat_scope.

(** ** Text *)

Lemma lacks_join c sep l : c <> sep -> forallb (lacks sep) l = true -> lacks sep (String.concat (String c EmptyString) l) = true.
Proof.
  intro Hs. induction l as [|w l IH]; auto. intro H. cbn in H. apply andb_true_iff in H. destruct H as [H1 H2].
  destruct l as [|w' l]; auto.
  change (String.concat (String c EmptyString) (w :: w' :: l)) with (append w (String c (String.concat (String c EmptyString) (w' :: l)))).
  rewrite lacks_app, H1. cbn [lacks andb]. rewrite (IH H2).
  destruct (Ascii.eqb_spec c sep) as [E|_]; [congruence|]. auto.
Qed.

Lemma cut_join c l : l <> [] -> forallb (lacks c) l = true -> cut c (String.concat (String c EmptyString) l) = l.
Proof.
  induction l as [|w l IH]; [congruence|]. intros _ H. cbn in H. apply andb_true_iff in H. destruct H as [H1 H2].
  destruct l as [|w' l].
  - cbn. apply cut_word; auto.
  - change (String.concat (String c EmptyString) (w :: w' :: l)) with (append w (String c (String.concat (String c EmptyString) (w' :: l)))).
    rewrite cut_sep by auto. rewrite IH; auto. discriminate.
Qed.

Definition table_text (c : ascii) (ls : list (list string)) : string :=
  fold_right append EmptyString (map (fun l => append (String.concat (String c EmptyString) l) newline) ls).

Lemma table_snoc c ls l : append (table_text c ls) (append (String.concat (String c EmptyString) l) newline) = table_text c (ls ++ [l]).
Proof.
  unfold table_text. rewrite map_app. cbn [map app]. induction (map _ ls) as [|x xs IH]; cbn [fold_right app append].
  - rewrite append_nil. auto.
  - rewrite append_assoc, IH. auto.
Qed.

Definition fields (c : ascii) (l : list string) : Prop := l <> [] /\ forallb (lacks c) l = true /\ forallb (lacks "010") l = true.

Lemma read_table_text c ls : c <> "010"%char -> Forall (fields c) ls -> read_table c (table_text c ls) = ls.
Proof.
  intros Hc H. unfold read_table, table_text.
  rewrite <- (map_map (String.concat (String c EmptyString)) (fun s => append s newline)).
  change "010"%char with (ascii_of_nat 10) in *. rewrite cut_lines.
  - rewrite removelast_app by discriminate. cbn [removelast]. rewrite app_nil_r, map_map.
    rewrite <- (map_id ls) at 2. apply map_ext_in. intros l Hl. rewrite Forall_forall in H. destruct (H l Hl) as (H1 & H2 & _).
    apply cut_join; auto.
  - apply forallb_forall. intros s Hs. apply in_map_iff in Hs. destruct Hs as (l & <- & Hl).
    rewrite Forall_forall in H. destruct (H l Hl) as (H1 & H2 & H3). apply lacks_join; auto.
Qed.

Lemma lacks_digits c l : digit_of c = None -> Forall is_digit l -> lacks c (text_of l) = true.
Proof.
  intro Hc. induction 1 as [|d l Hd _ IH]; auto. unfold text_of. cbn [map string_of_list_ascii lacks].
  change (string_of_list_ascii (map digit l)) with (text_of l). rewrite IH, andb_true_r.
  destruct (Ascii.eqb_spec (digit d) c) as [E|_]; auto. pose proof (digit_of_digit _ Hd). congruence.
Qed.
Lemma lacks_nat c n : digit_of c = None -> lacks c (nat_text n) = true.
Proof. intro H. apply lacks_digits; auto. apply digits_digit. Qed.
Lemma lacks_int c n : digit_of c = None -> c <> "-"%char -> lacks c (int_text n) = true.
Proof.
  intros H Hm. unfold int_text. destruct (n <? 0)%Z; [|apply lacks_nat; auto]. cbn [append lacks].
  rewrite lacks_nat by auto. destruct (Ascii.eqb_spec "-" c); congruence || auto.
Qed.

Lemma nat_text_head n : exists d s, is_digit d /\ nat_text n = String (digit d) s.
Proof.
  unfold nat_text. pose proof (digits_digit (Z.to_nat (ndigits (Z.of_N n))) (Z.of_N n)) as H.
  pose proof (read_nat_text n) as R. unfold nat_text in R.
  destruct (digits _ _) as [|d l]; [cbn in R; discriminate R|]. inversion H; subst. exists d, (text_of l). auto.
Qed.

Lemma sign_nat n : rd_sign (nat_text n) = (false, nat_text n).
Proof.
  destruct (nat_text_head n) as (d & s & Hd & ->).
  assert (E : digit d <> "-"%char) by (intro E; pose proof (digit_of_digit _ Hd) as X; rewrite E in X; discriminate X).
  unfold rd_sign. destruct (digit d) as [b0 b1 b2 b3 b4 b5 b6 b7].
  destruct b0, b1, b2, b3, b4, b5, b6, b7; try reflexivity. exfalso; apply E; reflexivity.
Qed.

Lemma read_int_nat n : read_int (nat_text n) = Some (Z.of_N n).
Proof. unfold read_int. rewrite sign_nat, read_nat_text. auto. Qed.

Lemma read_int_text n : read_int (int_text n) = Some n.
Proof.
  unfold int_text. destruct (Z.ltb_spec n 0).
  - unfold read_int. cbn [append rd_sign]. rewrite read_nat_text. f_equal. rewrite Z2N.id by lia. lia.
  - rewrite read_int_nat. f_equal. apply Z2N.id. auto.
Qed.

(** Adjacency matrices. *)

Lemma all_some_map {A B} (f : A -> option B) g l : (forall x, In x l -> f x = Some (g x)) -> all_some (map f l) = Some (map g l).
Proof.
  induction l as [|x l IH]; intro H; auto. cbn [map all_some]. rewrite (H x) by (left; auto).
  rewrite IH by (intros; apply H; right; auto). auto.
Qed.

Lemma bit_lacks c b : c <> "0"%char -> c <> "1"%char -> lacks c (bit_text b) = true.
Proof. intros H0 H1. destruct b; cbn [bit_text lacks]; [destruct (Ascii.eqb_spec "1" c)|destruct (Ascii.eqb_spec "0" c)]; congruence || auto. Qed.

Lemma concat_not_empty c w l : w <> EmptyString -> String.concat (String c EmptyString) (w :: l) <> EmptyString.
Proof.
  intros H. destruct l as [|w' l]; auto.
  change (String.concat (String c EmptyString) (w :: w' :: l)) with (append w (String c (String.concat (String c EmptyString) (w' :: l)))).
  destruct w; [congruence|discriminate].
Qed.

Lemma bits_lacks m i c : c <> "0"%char -> c <> "1"%char -> forallb (lacks c) (map (fun j => bit_text (m_at m i j)) (seq 0 (m_cols m))) = true.
Proof. intros H0 H1. apply forallb_forall. intros w Hw. apply in_map_iff in Hw. destruct Hw as (j & <- & _). apply bit_lacks; auto. Qed.

Lemma adj_read m : read_bits (adj_text m) = Some (bits_of m).
Proof.
  unfold adj_text, bits_of. destruct (Nat.eqb_spec (m_rows m) 0) as [->|HR]; [reflexivity|].
  destruct (Nat.eqb_spec (m_cols m) 0) as [->|HC]; [rewrite Nat.mul_0_r; reflexivity|]. cbn [orb].
  destruct (Nat.eqb_spec (m_rows m * m_cols m) 0) as [E|_]; [apply Nat.eq_mul_0 in E; tauto|].
  assert (N1 : forall i, map (fun j => bit_text (m_at m i j)) (seq 0 (m_cols m)) <> []).
  { intros i E. apply map_eq_nil in E. destruct (m_cols m); [congruence|discriminate]. }
  assert (NE : String.concat newline (map (adj_row m) (seq 0 (m_rows m))) <> EmptyString).
  { destruct (m_rows m); [congruence|]. cbn [seq map]. apply concat_not_empty. unfold adj_row.
    destruct (m_cols m); [congruence|]. cbn [seq map]. apply concat_not_empty. destruct (m_at m 0 0); discriminate. }
  unfold read_bits. destruct (String.concat newline _) as [|a s] eqn:E; [congruence|]. rewrite <- E. clear E NE a s.
  unfold newline. change (ascii_of_nat 10) with "010"%char. rewrite cut_join.
  - rewrite map_map. apply all_some_map. intros i _. unfold adj_row. rewrite (cut_join " "%char); auto.
    + rewrite map_map. apply all_some_map. intros j _. destruct (m_at m i j); reflexivity.
    + apply bits_lacks; discriminate.
  - intro E. apply map_eq_nil in E. destruct (m_rows m); [congruence|discriminate].
  - apply forallb_forall. intros w Hw. apply in_map_iff in Hw. destruct Hw as (i & <- & _). unfold adj_row.
    apply (lacks_join " "%char); [discriminate|]. apply bits_lacks; discriminate.
Qed.

(** ** Paths *)

Lemma without_app c a b : without c (append a b) <-> without c a /\ without c b.
Proof. induction a as [|x a IH]; cbn; [tauto|]. rewrite IH. tauto. Qed.

Lemma c_str_app a b : without "000" a -> c_str (append a b) = append a (c_str b).
Proof.
  induction a as [|x a IH]; cbn [append c_str without]; auto. intros [H1 H2].
  destruct (Ascii.eqb_spec x "000"); [congruence|]. rewrite IH; auto.
Qed.

Lemma c_str_id a : without "000" a -> c_str a = a.
Proof. intro H. rewrite <- (append_nil a) at 1. rewrite c_str_app, append_nil by auto. auto. Qed.

Lemma append_inj a b c : append a b = append a c -> b = c.
Proof. induction a; cbn; auto. intro H. injection H. auto. Qed.

Section Files.
Variable O : tops.
Variable C : config.
Variable W : soracles O.
Variable F : place O.
Hypothesis HF : folder F.

Notation solver := (solver O).

Definition in_folder (n : string) : string := append (pl_folder F) (append "/" n).

Lemma c_str_in n : c_str (in_folder n) = in_folder (c_str n).
Proof. unfold in_folder. rewrite c_str_app by apply (fo_path HF). cbn [append c_str Ascii.eqb Bool.eqb]. auto. Qed.

Lemma in_folder_inj n m : in_folder n = in_folder m -> n = m.
Proof. unfold in_folder. intro H. apply append_inj in H. cbn [append] in H. injection H. auto. Qed.

Definition status_name := "rpgo_status.csv"%string.
Definition rejection_name := "outlier_rejection_status.txt"%string.
Definition result_name := "result.g2o"%string.
Definition weights_name := "gnc_weights.csv"%string.
Definition adj_name (id : obsid) := String (ascii_of_N (fst id)) (append "-" (String (ascii_of_N (snd id)) "_adj_matrix.txt")).

Lemma adj_path_eq id : adj_path F id = in_folder (adj_name id).
Proof. reflexivity. Qed.

(** Fixed names are ordinary. *)
Definition fixed (n : string) : Prop := n = status_name \/ n = rejection_name \/ n = result_name \/ n = weights_name.
Lemma fixed_opens n : fixed n -> c_str n = n /\ pl_opens F (in_folder n) = true.
Proof.
  intro H. destruct H as [H|[H|[H|H]]]; subst n; (split; [reflexivity|]; apply (fo_files HF); [discriminate|cbn; repeat split; discriminate..]).
Qed.

(** None of them is the name of an adjacency matrix. *)
Lemma adj_not_fixed id n : fixed n -> c_str (adj_name id) <> n.
Proof.
  unfold adj_name. cbn [append c_str]. intros H E.
  destruct (Ascii.eqb (ascii_of_N (fst id)) "000"); [subst; destruct H as [H|[H|[H|H]]]; discriminate H|].
  cbn [Ascii.eqb Bool.eqb] in E. destruct H as [H|[H|[H|H]]]; rewrite H in E; discriminate E.
Qed.

Lemma create_at p t d q : create F p t d q = if String.eqb q (c_str p) && pl_opens F (c_str p) then Some t else d q.
Proof. unfold create, put. destruct (pl_opens F (c_str p)); [rewrite andb_true_r; auto|rewrite andb_false_r; auto]. Qed.

Lemma create_fixed n m t d : fixed n -> create F (in_folder m) t d (in_folder n) = if String.eqb n (c_str m) then Some t else d (in_folder n).
Proof.
  intro H. destruct (fixed_opens n H) as [H1 H2]. rewrite create_at, c_str_in.
  destruct (String.eqb_spec n (c_str m)) as [E|E].
  - rewrite <- E, String.eqb_refl, H2. auto.
  - destruct (String.eqb_spec (in_folder n) (in_folder (c_str m))) as [E'|_]; auto. apply in_folder_inj in E'. congruence.
Qed.

Lemma add_text_at p t d q : add_text F p t d q =
  if String.eqb q (c_str p) && pl_opens F (c_str p) then Some (append (match d q with Some u => u | None => EmptyString end) t) else d q.
Proof.
  unfold add_text, put. destruct (pl_opens F (c_str p)); [rewrite andb_true_r|rewrite andb_false_r; auto].
  destruct (String.eqb_spec q (c_str p)) as [->|_]; auto.
Qed.

Lemma save_adj_fixed n p d : fixed n -> save_adj W F p d (in_folder n) = d (in_folder n).
Proof.
  intro H. unfold save_adj. revert d. induction (uiter _ (p_lcs p)) as [|e l IH]; intro d; auto. cbn [fold_left].
  rewrite IH, adj_path_eq, create_fixed by auto.
  destruct (String.eqb_spec n (c_str (adj_name (fst e)))) as [E|_]; auto. symmetry in E. apply adj_not_fixed in E; tauto.
Qed.

Lemma save_adj_other q p d : (forall id, In id (map fst (p_lcs p)) -> q = c_str (adj_path F id) -> pl_opens F q = false) ->
  save_adj W F p d q = d q.
Proof.
  intro H. unfold save_adj.
  assert (H' : forall id, In id (map fst (uiter (w_lc_order (so_pcm W)) (p_lcs p))) -> q = c_str (adj_path F id) -> pl_opens F q = false).
  { intros id Hi. apply H. apply (Permutation_in _ (Permutation_map fst (uiter_perm (w_lc_order (so_pcm W)) (p_lcs p)))). auto. }
  clear H. revert d. induction (uiter _ (p_lcs p)) as [|e l IH]; intro d; auto. cbn [fold_left map] in *.
  rewrite IH by (intros; apply (H' id); [right|]; auto). rewrite create_at.
  destruct (String.eqb_spec q (c_str (adj_path F (fst e)))) as [E|_]; auto. cbn [andb].
  rewrite <- E, (H' (fst e)); auto. left; auto.
Qed.

(** ** One call *)

Lemma renders_save : renders (pl_factor F) -> forall s d,
  exists ls, save_files C F s d =
    if g2o_throws (s_nfg s) then Throw (create F (result_path F) (file_text ls) d) InvalidArgument
    else Ok (if c_gnc C then create F (weights_path F) (weights_text F (s_w s)) (create F (result_path F) (file_text ls) d)
             else create F (result_path F) (file_text ls) d) tt.
Proof.
  intros HR s d. unfold save_files.
  destruct (g2o_solver O (pl_factor F) HR (s_nfg s) (kmapi (fun _ => pl_value F) (s_vals s))) as [ls ->].
  exists ls. destruct (g2o_throws (s_nfg s)); auto.
Qed.

Lemma vinsert_throw vs : forall (v w : values O) e, vinsert_all vs v = Throw w e -> e <> InvalidArgument.
Proof.
  induction vs as [|[k x] vs IH]; intros v w e; cbn [vinsert_all]; [discriminate|].
  destruct (kmem k v); [intro H; injection H as _ <-; discriminate|apply IH].
Qed.

Lemma vupdate_throw vs : forall (v w : values O) e, vupdate_all vs v = Throw w e -> e <> InvalidArgument.
Proof.
  induction vs as [|[k x] vs IH]; intros v w e; cbn [vupdate_all]; [discriminate|].
  destruct (kfind k v) as [y|]; [|intro H; injection H as _ <-; discriminate].
  destruct (same_type y x); [apply IH|intro H; injection H as _ <-; discriminate].
Qed.

Lemma update_values_throw r : forall (st st' : values O * values O) e, update_values r st = Throw st' e -> e <> InvalidArgument.
Proof.
  induction r as [|[k x] r IH]; intros st st' e; cbn [update_values]; [discriminate|].
  destruct (kfind k (fst st)) as [y|]; [|destruct (kfind k (snd st)) as [y|]; [|apply IH]];
    (destruct (same_type y x); [apply IH|intro H; injection H as _ <-; discriminate]).
Qed.

Definition opt_keeps (s : solver) {A} (x : outcome solver A) : Prop :=
  match x with Ok s' _ => s_pcm s' = s_pcm s | Throw s' e => s_pcm s' = s_pcm s /\ e <> InvalidArgument | Undef _ => True end.

Lemma finish_opt r (s : solver) : opt_keeps s (finish r s).
Proof.
  unfold finish. destruct (update_values r (s_vals s, s_tvals s)) as [[v tv] []|[v tv] e|u] eqn:E; cbn [opt_keeps]; auto.
  - destruct (s_pcm s) eqn:Ep; auto.
  - split; auto. eapply update_values_throw; eauto.
Qed.

Lemma fixed_lcs_opt (s : solver) k ws : forall i, match fixed_lcs s k ws i with Ok s' _ => True | Throw s' e => s' = s /\ e <> InvalidArgument | Undef _ => True end.
Proof.
  induction ws as [|w ws IH]; intro i; cbn [fixed_lcs]; auto.
  destruct (negb (Qle_bool w (1 # 2))).
  - destruct (nth_error (s_nfg s) (k + i)); cbn [obind]; [|split; auto; discriminate].
    specialize (IH (S i)). destruct (fixed_lcs s k ws (S i)); cbn [obind]; auto.
  - cbn [obind]. specialize (IH (S i)). destruct (fixed_lcs s k ws (S i)); cbn [obind]; auto.
Qed.

Lemma optimize_opt (s : solver) : opt_keeps s (optimize C W s).
Proof.
  unfold optimize. destruct (vinsert_all (s_tvals s) (s_vals s)) as [full []|v e|u] eqn:EV; cbn [opt_keeps]; auto.
  2:{ split; auto. eapply vinsert_throw; eauto. }
  destruct (gnc_branch C s) as [p|].
  - destruct (c_bias C && _); [exact I|]. unfold call_opt. destruct (so_opt W _ _); cbn [obind opt_keeps]; [|split; auto; discriminate].
    match goal with |- opt_keeps s (finish ?r ?s1) => pose proof (finish_opt r s1) as H; exact H end.
  - assert (HG : match (if c_fix C then fixed_graph s else Ok s (s_nfg s ++ s_tnfg s)) with Throw s' e => s' = s /\ e <> InvalidArgument | _ => True end).
    { destruct (c_fix C); auto. unfold fixed_graph. destruct (s_pcm s); auto.
      destruct (_ <? _); auto. destruct (_ <? _); auto.
      match goal with |- context [fixed_lcs ?a ?b ?c ?d] => pose proof (fixed_lcs_opt a b c d) as X; destruct (fixed_lcs a b c d) end; cbn [obind]; auto. }
    destruct (if c_fix C then _ else _) as [s1 g|s1 e|u]; cbn [obind opt_keeps]; auto.
    2:{ destruct HG as [-> HG]. auto. }
    unfold call_opt. destruct (so_opt W _ _); cbn [obind opt_keeps]; [|split; auto; discriminate].
    destruct (_ <? _); [exact I|]. destruct (_ <? _); [exact I|].
    destruct (s_pcm s) as [p|] eqn:Ep; [|destruct (c_debug C && negb (c_gn C)); [exact I|]];
    match goal with |- opt_keeps s (finish ?r ?s1) => pose proof (finish_opt r s1) as H; exact H end.
Qed.

Lemma align_rest_throw (p : pcm O) r0 rs : forall (vs v : values O) e, align_rest (so_pcm W) p r0 rs vs = Throw v e -> e <> InvalidArgument.
Proof.
  induction rs as [|r rs IH]; intros vs v e; cbn [align_rest]; [discriminate|].
  destruct (align_one (so_pcm W) p r0 r vs) as [v1 []|v1 e1|u] eqn:E; cbn [obind]; [apply IH| |discriminate].
  intro H. injection H as _ <-. revert E. unfold align_one.
  repeat (match goal with |- context [match ?x with _ => _ end] => destruct x eqn:? end; try discriminate);
  intro H; try (injection H as _ <-; discriminate); try (eapply vupdate_throw; eauto).
Qed.


Lemma proc_throw nv vals fs : forall (p p' : pcm O) acc e, proc_factors C nv vals fs p acc = Throw p' e -> e <> InvalidArgument.
Proof.
  induction fs as [|f fs IH]; intros p p' acc e; cbn [proc_factors]; [discriminate|].
  destruct (proc_factor C nv vals f p acc) as [p1 acc1|p1 e1|u] eqn:E; cbn [obind]; [apply IH| |discriminate].
  intro H. injection H as _ <-. revert E. unfold proc_factor, update_odom.
  repeat (match goal with |- context [match ?x with _ => _ end] => destruct x eqn:? end; cbn [obind]; try discriminate);
  intro H; injection H as _ <-; try discriminate;
  repeat match goal with H : context [match ?x with _ => _ end] |- _ => destruct x eqn:?; try discriminate; try (injection H as _ <-; discriminate) end.
Qed.

Lemma remove_outliers_throw fs nv (x y : pst O) e : remove_outliers C (so_pcm W) fs nv x = Throw y e -> e <> InvalidArgument.
Proof.
  unfold remove_outliers. destruct (vinsert_all nv (ps_vals x)) as [v []|v e1|u] eqn:EV; [| |discriminate].
  2:{ intro H. injection H as _ <-. eapply vinsert_throw; eauto. }
  destruct fs as [|f fs]; [discriminate|].
  destruct (proc_factors C nv v (f :: fs) (ps_pcm x) ([], false)) as [p1 [lcs opt]|p1 e1|u] eqn:EP; [| |discriminate].
  2:{ intro H. injection H as _ <-. eapply proc_throw; eauto. }
  match goal with |- match ?r with _ => _ end = _ -> _ => destruct r as [[p3 opt']|u] end; [|discriminate].
  destruct (c_align C && _); [|discriminate].
  match goal with |- match ?r with _ => _ end = _ -> _ => destruct r as [v1 []|v1 e1|u] eqn:EA end; [discriminate| |discriminate].
  intro H. injection H as _ <-. revert EA. unfold align. destruct (p_robots _) as [|r0 rs]; [discriminate|].
  destruct (robot_odom_values _ r0 _); [|intro H; injection H as _ <-; discriminate].
  destruct (vupdate_all v0 v) as [v2 []|v2 e2|u] eqn:EU; cbn [obind]; [apply align_rest_throw| |discriminate].
  intro H. injection H as _ <-. eapply vupdate_throw; eauto.
Qed.

Lemma ingest_throw fs vs (s s1 : solver) e : ingest C W fs vs s = Throw s1 e -> e <> InvalidArgument.
Proof.
  unfold ingest. destruct (s_pcm s) as [p|].
  - unfold run_pcm. destruct (remove_outliers C (so_pcm W) fs vs _) as [st b|st e1|u] eqn:E; try discriminate.
    intro H. injection H as _ <-. eapply remove_outliers_throw; eauto.
  - unfold add_and_check. destruct (vinsert_all vs _) as [v []|v e1|u] eqn:E; try discriminate.
    + destruct fs as [|[f|] [|g fs]]; discriminate.
    + intro H. injection H as _ <-. eapply vinsert_throw; eauto.
Qed.

(** What a call does to the files, in terms of the states around it. *)
Definition saved (s : solver) (d : disk) : disk :=
  match save_files C F s d with Ok d' _ => d' | Throw d' _ => d' | Undef _ => d end.
Definition line_of (t : took) (s : solver) : string := match status_line C t s with Val l => l | Bad _ => EmptyString end.
Definition effect (e : event O) (d : disk) : disk :=
  let d1 := if rejected C W e && c_log C then
              match s_pcm (ev_after e) with Some p => log_spin F (ev_took e) p (save_adj W F p d) | None => d end
            else d in
  if logged e && c_log C then saved (ev_after e) (add_text F (status_path F) (line_of (ev_took e) (ev_after e)) d1) else d1.

Hypothesis HR : renders (pl_factor F).

Lemma log_files_effect t s d :
  log_files C F t (s, d) =
  match log_status C s with
  | Ok s' _ => Ok (s', if c_log C then saved s (add_text F (status_path F) (line_of t s) d) else d) tt
  | Throw s' e => Throw (s', saved s (add_text F (status_path F) (line_of t s) d)) e
  | Undef u => Undef u
  end /\ (forall s' e, log_status C s = Throw s' e -> e = InvalidArgument /\ c_log C = true).
Proof.
  unfold log_files, log_status. destruct (c_log C) eqn:EL; [|split; [auto|discriminate]].
  unfold line_of. destruct (status_line C t s) as [l|u] eqn:El.
  - destruct (s_pcm s) as [p|] eqn:Ep; [|unfold status_line, get_num_lc in El; rewrite Ep in El; discriminate El].
    unfold saved. destruct (renders_save HR s (add_text F (status_path F) l d)) as [ls ->].
    destruct (g2o_throws (s_nfg s)); cbn [omap]; (split; [auto|]); intros s' e H; [injection H as _ <-; auto|discriminate].
  - unfold status_line, get_num_lc, get_num_inliers in El. destruct (s_pcm s) as [p|]; [destruct (c_gnc C); discriminate El|].
    injection El as <-. split; auto. discriminate.
Qed.

Lemma log_status_state (s s' : solver) x : log_status C s = Ok s' x -> s' = s.
Proof. unfold log_status. destruct (c_log C); [|intro H; injection H; auto]. destruct (s_pcm s); [|discriminate]. destruct (g2o_throws _); [discriminate|]. intro H; injection H; auto. Qed.
Lemma log_status_throw_state (s s' : solver) e : log_status C s = Throw s' e -> s' = s.
Proof. unfold log_status. destruct (c_log C); [|discriminate]. destruct (s_pcm s); [|discriminate]. destruct (g2o_throws _); [|discriminate]. intro H; injection H; auto. Qed.

Lemma rejection_effect fs vs t s s1 b s2 d o oe : ingest C W fs vs s = Ok s1 b -> s_pcm s2 = s_pcm s1 ->
  (o = OpForce fs vs \/ exists opt, o = OpUpdate fs vs opt) ->
  log_rejection C W F fs t s1 d =
  (if rejected C W (Event o t s s2 oe) && c_log C then match s_pcm s2 with Some p => log_spin F t p (save_adj W F p d) | None => d end else d).
Proof.
  intros HI HP HO. unfold rejected, log_rejection. cbn [ev_op ev_before].
  destruct HO as [->|[opt ->]]; (destruct fs as [|f fs]; [reflexivity|]; cbn iota; rewrite HI, HP; cbn [andb]; destruct (s_pcm s1), (c_log C); auto).
Qed.

Lemma rejected_not fs vs t s s2 o oe : (forall s1 b, ingest C W fs vs s <> Ok s1 b) ->
  (o = OpForce fs vs \/ exists opt, o = OpUpdate fs vs opt) -> rejected C W (Event o t s s2 oe) = false.
Proof.
  intros HI HO. unfold rejected. cbn [ev_op ev_before].
  destruct HO as [->|[opt ->]]; (destruct fs as [|f fs]; auto; cbn iota; destruct (ingest C W (f :: fs) vs s) as [s1 b| |] eqn:E; auto; exfalso; eapply HI; eauto).
Qed.

Lemma effect_logged e d d1 : logged e = true ->
  d1 = (if rejected C W e && c_log C then
          match s_pcm (ev_after e) with Some p => log_spin F (ev_took e) p (save_adj W F p d) | None => d end else d) ->
  effect e d = if c_log C then saved (ev_after e) (add_text F (status_path F) (line_of (ev_took e) (ev_after e)) d1) else d1.
Proof. intros HL ->. unfold effect. rewrite HL. cbn [andb]. auto. Qed.

Lemma effect_silent e d : logged e = false ->
  effect e d = if rejected C W e && c_log C then
     match s_pcm (ev_after e) with Some p => log_spin F (ev_took e) p (save_adj W F p d) | None => d end else d.
Proof. intro HL. unfold effect. rewrite HL. cbn [andb]. auto. Qed.

Lemma tail_effect o t fs vs s s1 b d s2 : ingest C W fs vs s = Ok s1 b -> s_pcm s2 = s_pcm s1 ->
  (o = OpForce fs vs \/ exists opt, o = OpUpdate fs vs opt) -> logging o = true ->
  log_files C F t (s2, log_rejection C W F fs t s1 d) =
  match log_status C s2 with
  | Ok s' _ => Ok (s', effect (Event o t s s' None) d) tt
  | Throw s' e => Throw (s', effect (Event o t s s' (Some e)) d) e
  | Undef u => Undef u
  end.
Proof.
  intros EI HP HO HL. destruct (log_files_effect t s2 (log_rejection C W F fs t s1 d)) as [-> HT].
  destruct (log_status C s2) as [s3 []|s3 e|u] eqn:EL; auto.
  - apply log_status_state in EL. subst s3.
    rewrite (effect_logged (Event o t s s2 None) d (log_rejection C W F fs t s1 d)); auto.
    + unfold logged. cbn [ev_op ev_exn]. rewrite HL. auto.
    + apply (rejection_effect fs vs t s s1 b s2 d o None EI HP HO).
  - destruct (HT s3 e eq_refl) as [-> HC]. apply log_status_throw_state in EL. subst s3.
    rewrite (effect_logged (Event o t s s2 (Some InvalidArgument)) d (log_rejection C W F fs t s1 d)); auto.
    + cbn [ev_after ev_took]. rewrite HC. auto.
    + unfold logged. cbn [ev_op ev_exn]. rewrite HL. auto.
    + apply (rejection_effect fs vs t s s1 b s2 d o (Some InvalidArgument) EI HP HO).
Qed.

Lemma silent_effect o t fs vs s s1 b d s2 oe : ingest C W fs vs s = Ok s1 b -> s_pcm s2 = s_pcm s1 ->
  (o = OpForce fs vs \/ exists opt, o = OpUpdate fs vs opt) -> logged (Event o t s s2 oe) = false ->
  effect (Event o t s s2 oe) d = log_rejection C W F fs t s1 d.
Proof.
  intros EI HP HO HL. rewrite effect_silent by auto. cbn [ev_after ev_took]. symmetry.
  apply (rejection_effect fs vs t s s1 b s2 d o oe EI HP HO).
Qed.

Lemma logged_other (o : op O) t s s2 e : e <> InvalidArgument -> logged (Event o t s s2 (Some e)) = false.
Proof. intro H. unfold logged. cbn [ev_op ev_exn]. destruct (logging o), e; auto; congruence. Qed.

Lemma refused_effect o t fs vs s s1 e d : ingest C W fs vs s = Throw s1 e ->
  (o = OpForce fs vs \/ exists opt, o = OpUpdate fs vs opt) -> effect (Event o t s s1 (Some e)) d = d.
Proof.
  intros EI HO. rewrite effect_silent by (apply logged_other; eapply ingest_throw; eauto).
  rewrite (rejected_not fs vs t s s1 o (Some e)); auto. congruence.
Qed.

Lemma quiet_effect o t s s' oe d : quiet o = true -> effect (Event o t s s' oe) d = d.
Proof. intro H. unfold effect. destruct o; try discriminate H; reflexivity. Qed.

Lemma step_effect o t s d : step_files C W F o t (s, d) =
  match step C W o s with
  | Ok s' r => Ok (s', effect (Event o t s s' None) d) r
  | Throw s' e => Throw (s', effect (Event o t s s' (Some e)) d) e
  | Undef u => Undef u
  end.
Proof.
  destruct (quiet o) eqn:HQ.
  - transitivity (with_disk d (step C W o s)); [destruct o; try discriminate HQ; reflexivity|].
    unfold with_disk. destruct (step C W o s) as [s' r|s' e|u]; cbn [omap]; auto; rewrite quiet_effect; auto.
  - destruct o as [fs vs opt|fs vs| | | | | | | |]; try discriminate HQ; clear HQ.
    + cbn [step_files step]. unfold no_ret, update_files, update, with_disk.
      destruct (ingest C W fs vs s) as [s1 b|s1 e|u] eqn:EI; cbn [omap obind]; auto.
      2:{ rewrite (refused_effect _ t fs vs s s1 e d EI); eauto. }
      assert (HO : opt_keeps s1 (if b && opt then optimize C W s1 else Ok s1 tt)) by (destruct (b && opt); [apply optimize_opt|reflexivity]).
      destruct (if b && opt then optimize C W s1 else Ok s1 tt) as [s2 []|s2 e|u]; cbn [omap obind opt_keeps] in *; auto.
      2:{ destruct HO as [HP HE]. rewrite (silent_effect _ t fs vs s s1 b d s2 (Some e) EI HP); eauto. apply logged_other; auto. }
      destruct opt.
      * rewrite (tail_effect (OpUpdate fs vs true) t fs vs s s1 b d s2 EI HO) by eauto.
        destruct (log_status C s2) as [s3 []|s3 e|u]; auto.
      * cbn [obind]. rewrite (silent_effect (OpUpdate fs vs false) t fs vs s s1 b d s2 None EI HO); eauto.
    + cbn [step_files step]. unfold no_ret, force_files, force_update, with_disk.
      destruct (ingest C W fs vs s) as [s1 b|s1 e|u] eqn:EI; cbn [omap obind]; auto.
      2:{ rewrite (refused_effect _ t fs vs s s1 e d EI); eauto. }
      pose proof (optimize_opt s1) as HO.
      destruct (optimize C W s1) as [s2 []|s2 e|u]; cbn [omap obind opt_keeps] in *; auto.
      2:{ destruct HO as [HP HE]. rewrite (silent_effect _ t fs vs s s1 b d s2 (Some e) EI HP); eauto. apply logged_other; auto. }
      rewrite (tail_effect (OpForce fs vs) t fs vs s s1 b d s2 EI HO) by eauto.
      destruct (log_status C s2) as [s3 []|s3 e|u]; auto.
Qed.

(** ** Histories *)

Lemma run_effect h : forall s d, match run_files C W F h (s, d) with
  | Val (s', d') => run_on C W (map fst h) s = Val s' /\ d' = fold_left (fun d e => effect e d) (events C W h s) d /\ length (events C W h s) = length h
  | Bad u => run_on C W (map fst h) s = Bad u
  end.
Proof.
  induction h as [|[o t] h IH]; intros s d; cbn [run_files map fst run_on events]; auto.
  rewrite step_effect. destruct (step C W o s) as [s1 r|s1 e|u]; auto; cbn [fold_left length];
    match goal with |- context [run_files C W F h (s1, ?d1)] => specialize (IH s1 d1); destruct (run_files C W F h (s1, d1)) as [[s' d']|u] end; auto;
    destruct IH as (A & B & D); auto.
Qed.

Lemma session_effect b h d : match session C W F b h d with
  | Val (s', d') => run_on C W (map fst h) (solver_init b) = Val s' /\
      d' = fold_left (fun d e => effect e d) (events C W h (solver_init b)) (log_init C F b d) /\ length (events C W h (solver_init b)) = length h
  | Bad u => run_on C W (map fst h) (solver_init b) = Bad u
  end.
Proof. apply run_effect. Qed.

Lemma logged_pcm o s : c_log C = true -> logging o = true -> match step C W o s with
  | Ok s' _ => s_pcm s' <> None
  | Throw s' InvalidArgument => s_pcm s' <> None
  | _ => True
  end.
Proof.
  intros HC HL.
  assert (HS : forall s2 : solver, match log_status C s2 with Ok s' _ => s_pcm s' <> None | Throw s' _ => s_pcm s' <> None | Undef _ => True end).
  { intro s2. unfold log_status. rewrite HC. destruct (s_pcm s2) eqn:E; auto. destruct (g2o_throws _); congruence. }
  destruct o as [fs vs opt|fs vs| | | | | | | |]; try discriminate HL; cbn [logging step] in *; unfold no_ret; [subst opt; unfold update|unfold force_update].
  - destruct (ingest C W fs vs s) as [s1 b|s1 e|u] eqn:EI; cbn [obind]; auto.
    2:{ apply ingest_throw in EI. destruct e; auto; congruence. }
    assert (HO : opt_keeps s1 (if b && true then optimize C W s1 else Ok s1 tt)) by (destruct (b && true); [apply optimize_opt|reflexivity]).
    destruct (if b && true then optimize C W s1 else Ok s1 tt) as [s2 []|s2 e|u]; cbn [obind opt_keeps] in *; auto.
    2:{ destruct HO, e; auto; congruence. }
    specialize (HS s2). destruct (log_status C s2) as [s3 []|s3 e|u]; cbn [obind]; auto. destruct e; auto.
  - destruct (ingest C W fs vs s) as [s1 b|s1 e|u] eqn:EI; cbn [obind]; auto.
    2:{ apply ingest_throw in EI. destruct e; auto; congruence. }
    pose proof (optimize_opt s1) as HO.
    destruct (optimize C W s1) as [s2 []|s2 e|u]; cbn [obind opt_keeps] in *; auto.
    2:{ destruct HO, e; auto; congruence. }
    specialize (HS s2). destruct (log_status C s2) as [s3 []|s3 e|u]; cbn [obind]; auto. destruct e; auto.
Qed.

(** Every event is a step of the model. *)
Definition genuine (e : event O) : Prop :=
  match ev_exn e with
  | None => exists r, step C W (ev_op e) (ev_before e) = Ok (ev_after e) r
  | Some x => step C W (ev_op e) (ev_before e) = Throw (ev_after e) x
  end.

Lemma events_genuine h : forall s, Forall genuine (events C W h s).
Proof.
  induction h as [|[o t] h IH]; intro s; cbn [events]; [constructor|].
  destruct (step C W o s) as [s1 r|s1 e|u] eqn:E; constructor; auto; unfold genuine; cbn; eauto.
Qed.

Lemma genuine_pcm e : genuine e -> logged e = true -> c_log C = true -> s_pcm (ev_after e) <> None.
Proof.
  destruct e as [o t s s' oe]. unfold genuine, logged. cbn [ev_op ev_exn ev_before ev_after]. intros HG HL HC.
  apply andb_true_iff in HL. destruct HL as [HL HX]. pose proof (logged_pcm o s HC HL) as H.
  destruct oe as [x|]; [rewrite HG in H; destruct x; try discriminate HX; auto|]. destruct HG as [r HG]. rewrite HG in H. auto.
Qed.

(** *** Names of robot pairs *)

Section Names.
Variable P : BinNums.N -> Prop.
Notation named_id id := (P (fst id) /\ P (snd id)).
Definition named (m : umap obsid (meas O)) : Prop :=
  ukeys_distinct oid_eqb m /\ Forall (fun kv => named_id (fst kv)) m.

Lemma named_set id v m : named_id id -> named m -> named (lc_set id v m).
Proof.
  intros Hi [H1 H2]. split.
  - apply uset_distinct; [apply oid_eqb_refl|apply oid_eqb_sym|apply oid_eqb_trans|auto].
  - apply Forall_forall. intros x Hx. apply In_uset in Hx; [|apply oid_eqb_refl]. rewrite Forall_forall in H2. destruct Hx as [Hx|(k & Hk & ->)]; auto.
    cbn [fst]. apply oid_eqb_spec in Hk. destruct Hk as [[E1 E2]|[E1 E2]]; rewrite <- E1, <- E2; tauto.
Qed.

Lemma named_found id v m : lc_find id m = Some v -> named m -> named_id id.
Proof.
  intros H [_ H2]. apply ufind_In in H. destruct H as (k & Hk & Hin). rewrite Forall_forall in H2. specialize (H2 _ Hin). cbn [fst] in H2.
  apply oid_eqb_spec in Hk. destruct Hk as [[E1 E2]|[E1 E2]]; rewrite E1, E2; tauto.
Qed.

Lemma named_keys (m m' : umap obsid (meas O)) : map fst m' = map fst m -> named m -> named m'.
Proof.
  intros E [H1 H2]. split.
  - unfold ukeys_distinct in *. revert m E H1 H2. induction m' as [|[k v] m' IH]; intros [|[k0 v0] m] H D G; try discriminate; [constructor|].
    cbn [map fst] in H. injection H as -> H. inversion D as [|? ? D1 D2]; subst. inversion G as [|? ? G1 G2]; subst. constructor; [|eapply IH; eauto].
    apply Forall_forall. intros x Hx. rewrite Forall_forall in D1. apply (in_map fst) in Hx. rewrite H in Hx.
    apply in_map_iff in Hx. destruct Hx as (y & Hy & Hin). rewrite <- Hy. apply (D1 _ Hin).
  - apply Forall_forall. intros x Hx. apply (in_map fst) in Hx. assert (X : In (fst x) (map fst m)) by (rewrite <- E; exact Hx). clear Hx. rename X into Hx. apply in_map_iff in Hx. destruct Hx as (y & <- & Hin).
    rewrite Forall_forall in H2. apply (H2 _ Hin).
Qed.

Lemma umapM_keys {K} (f : meas O -> res (meas O)) : forall (m m' : umap K (meas O)), umapM f m = Val m' -> map fst m' = map fst m.
Proof.
  induction m as [|[k v] m IH]; intros m' H; cbn [umapM] in H; [injection H as <-; auto|].
  destruct (f v); [|discriminate]. cbn [rbind] in H. destruct (umapM f m) as [m2|] eqn:E; [|discriminate]. cbn [rbind] in H. injection H as <-.
  cbn [map fst]. f_equal. auto.
Qed.

Definition given_by (b : bf O) : Prop := P (chr (b_from b)) /\ P (chr (b_to b)).

Lemma update_odom_lcs vals b (p : pcm O) : match update_odom vals b p with Ok p' _ | Throw p' _ => p_lcs p' = p_lcs p | Undef _ => True end.
Proof.
  unfold update_odom. destruct (t_of O b); auto. destruct (n_find _ _); cbn [obind]; auto.
  destruct (kfind (b_from b) vals) as [[x|x]|]; cbn [obind]; auto.
Qed.

Lemma proc_lcs nv vals fs : forall (p : pcm O) acc,
  Forall (fun of => match of with Some (FBetween b) => given_by b | _ => True end) fs -> Forall given_by (fst acc) ->
  match proc_factors C nv vals fs p acc with
  | Ok p' acc' => p_lcs p' = p_lcs p /\ Forall given_by (fst acc')
  | Throw p' _ => p_lcs p' = p_lcs p
  | Undef _ => True
  end.
Proof.
  induction fs as [|of fs IH]; intros p acc HG HA; cbn [proc_factors]; auto. inversion HG as [|? ? G1 G2]; subst.
  assert (H : match proc_factor C nv vals of p acc with
    | Ok p' acc' => p_lcs p' = p_lcs p /\ Forall given_by (fst acc') | Throw p' _ => p_lcs p' = p_lcs p | Undef _ => True end).
  { unfold proc_factor. destruct of as [f|]; [|auto]. destruct f as [b|k x|k t|ks t]; auto.
    destruct (classify C nv (FBetween b)); auto.
    - pose proof (update_odom_lcs vals b p) as X. destruct (update_odom vals b p); cbn [obind]; auto.
    - destruct (b_from b =? b_to b)%N; auto. cbn [fst]. split; auto. apply Forall_app. auto. }
  destruct (proc_factor C nv vals of p acc) as [p1 acc1|p1 e|u]; cbn [obind]; auto. destruct H as [H1 H2]. rewrite <- H1. apply IH; auto.
Qed.

Lemma lc_bits_lcs fs new : forall (p p' : pcm O) bits r, lc_bits C fs new p bits = Val (r, p') -> p_lcs p' = p_lcs p.
Proof.
  induction fs as [|f fs IH]; intros p p' bits r; cbn [lc_bits]; [intro H; injection H as _ <-; auto|].
  destruct (are_loops_consistent C p f new) as [[x p1]|] eqn:E; [|discriminate]. cbn [rbind]. intro H. apply IH in H. rewrite H.
  revert E. unfold are_loops_consistent. destruct (negb _); [intro E; injection E as _ <-; auto|].
  destruct (t_of O f); [|discriminate]. destruct (t_of O new); [|discriminate].
  destruct (if (_ =? _)%N then _ else _). unfold traj_between. destruct (get_between _ _ _). destruct (get_between _ _ _).
  intro E; injection E as _ <-; auto.
Qed.

Lemma lm_bits_lcs l fs new : forall (p p' : pcm O) bits r, lm_bits l fs new p bits = Val (r, p') -> p_lcs p' = p_lcs p.
Proof.
  induction fs as [|f fs IH]; intros p p' bits r; cbn [lm_bits]; [intro H; injection H as _ <-; auto|].
  destruct (_ || _); [intro H; injection H as _ <-; auto|].
  destruct (t_of O f); [|discriminate]. destruct (t_of O new); [|discriminate].
  unfold traj_between. destruct (get_between _ _ _). intro H. apply IH in H. rewrite H. auto.
Qed.

Lemma parse_one_named vals b (p p' : pcm O) nn nn' : given_by b -> parse_one C vals b (p, nn) = Val (p', nn') ->
  named (p_lcs p) -> Forall (fun x => named_id (fst x)) nn -> named (p_lcs p') /\ Forall (fun x => named_id (fst x)) nn'.
Proof.
  intros Hb. unfold parse_one. destruct (_ || _); [intro H; injection H as <- <-; auto|].
  destruct (_ || _).
  - unfold increment_landmark_adj. cbn [p_lms set_total set_lms].
    destruct (length _ <=? 1); [intro H; cbn [rbind] in H; injection H as <- <-; auto|].
    destruct (dims_are _ _); [|discriminate].
    match goal with |- context [lm_bits ?a ?b ?c ?d ?e] => destruct (lm_bits a b c d e) as [[[bits|] p1]|u] eqn:E; cbn [rbind]; [| |discriminate] end;
      intro H; injection H as <- <-; apply lm_bits_lcs in E; cbn [p_lcs set_lms set_total] in *; rewrite E; auto.
  - intro H. assert (HO : exists ok p1, (if (chr (b_from b) =? chr (b_to b))%N then is_odom_consistent C p b else Val (true, p)) = Val (ok, p1) /\ p_lcs p1 = p_lcs p).
    { destruct (_ =? _)%N; [|eauto]. unfold is_odom_consistent in *. destruct (negb _); [eauto|]. unfold traj_between in *.
      destruct (get_between _ _ _). destruct (t_of O b); [|discriminate H]. eauto. }
    destruct HO as (ok & p1 & E1 & E2). rewrite E1 in H. cbn [rbind] in H. destruct ok; [|injection H as <- <-; rewrite E2; auto].
    intros HN HM. assert (HM' : Forall (fun x => named_id (fst x)) (nn_incr (chr (b_from b), chr (b_to b)) nn)).
    { unfold nn_incr. destruct (lc_find _ nn).
      - apply Forall_forall. intros x Hx. apply In_uset in Hx; [|apply oid_eqb_refl]. rewrite Forall_forall in HM. destruct Hx as [Hx|(k & Hk & ->)]; auto.
        cbn [fst]. apply oid_eqb_spec in Hk. cbn [fst snd] in Hk. destruct Hb. destruct Hk as [[<- <-]|[<- <-]]; auto.
      - apply Forall_app. split; auto. }
    rewrite <- E2 in HN.
    assert (HN2 : named (lc_set (chr (b_from b), chr (b_to b)) (meas_add (lc_get (chr (b_from b), chr (b_to b)) (p_lcs p1)) b) (p_lcs p1))) by (apply named_set; auto).
    destruct (c_loop_check C).
    + unfold increment_adj in H. cbn [p_lcs set_total set_order set_lcs p_order p_total] in H.
      destruct (length _ <=? 1); [cbn [rbind] in H; injection H as <- <-; split; auto; cbn [p_lcs set_lcs]; apply named_set; auto|].
      destruct (dims_are _ _); [|discriminate H].
      match type of H with context [lc_bits ?x ?a ?b ?c ?d] => destruct (lc_bits x a b c d) as [[bits p2]|u] eqn:E; cbn [rbind] in H; [|discriminate H] end.
      injection H as <- <-. apply lc_bits_lcs in E. split; auto. cbn [p_lcs set_lcs]. rewrite E. cbn [p_lcs set_lcs set_total set_order]. apply named_set; auto.
    + cbn [rbind] in H. injection H as <- <-. auto.
Qed.

Lemma parse_all_named vals bs : forall (p p' : pcm O) nn nn', Forall given_by bs -> rfold (parse_one C vals) bs (p, nn) = Val (p', nn') ->
  named (p_lcs p) -> Forall (fun x => named_id (fst x)) nn -> named (p_lcs p') /\ Forall (fun x => named_id (fst x)) nn'.
Proof.
  induction bs as [|b bs IH]; intros p p' nn nn' HG H HN HM; cbn [rfold] in H; [injection H as <- <-; auto|].
  inversion HG as [|? ? G1 G2]; subst. destruct (parse_one C vals b (p, nn)) as [[p1 nn1]|] eqn:E; [|discriminate H]. cbn [rbind] in H.
  destruct (parse_one_named vals b p p1 nn nn1 G1 E HN HM) as [A B]. eapply IH; eauto.
Qed.

Lemma find_named (p p' : pcm O) nn : Forall (fun x => named_id (fst x)) nn ->
  (if c_incremental C then find_inliers_inc nn p else find_inliers C p) = Val p' -> named (p_lcs p) -> named (p_lcs p').
Proof.
  intros HM H HN. destruct (c_incremental C).
  - unfold find_inliers_inc in H. match type of H with context [rfold ?f nn ?m0] => destruct (rfold f nn m0) as [lcs|] eqn:E; [|discriminate H] end. cbn [rbind] in H.
    match type of H with context [umapM ?f (p_lms p)] => destruct (umapM f (p_lms p)); [|discriminate H] end. cbn [rbind] in H. injection H as <-. cbn [p_lcs set_good set_lms set_lcs].
    revert E HN. generalize (p_lcs p) as m. induction HM as [|[id nw] nn Hi _ IH]; intros m E HN; cbn [rfold] in E; [injection E as <-; auto|].
    destruct (inc_inliers nw (lc_get id m)); [|discriminate E]. cbn [rbind] in E. eapply IH; eauto. apply named_set; auto.
  - unfold find_inliers in H. match type of H with context [umapM ?f (p_lcs p)] => destruct (umapM f (p_lcs p)) as [lcs|] eqn:E; [|discriminate H] end. cbn [rbind] in H.
    match type of H with context [umapM ?f (p_lms p)] => destruct (umapM f (p_lms p)); [|discriminate H] end. cbn [rbind] in H. injection H as <-. cbn [p_lcs set_good set_lms set_lcs].
    eapply named_keys; [eapply umapM_keys; eauto|auto].
Qed.

Definition named_graph (fs : graph_t O) : Prop := Forall (fun of => match of with Some (FBetween b) => given_by b | _ => True end) fs.

Lemma remove_outliers_named fs nv (x : pst O) : named_graph fs -> named (p_lcs (ps_pcm x)) ->
  match remove_outliers C (so_pcm W) fs nv x with Ok y _ | Throw y _ => named (p_lcs (ps_pcm y)) | Undef _ => True end.
Proof.
  intros HG HN. unfold remove_outliers. destruct (vinsert_all nv (ps_vals x)) as [v []|v e1|u]; auto.
  destruct fs as [|f fs]; [exact HN|].
  pose proof (proc_lcs nv v (f :: fs) (ps_pcm x) ([], false) HG ltac:(constructor)) as HP.
  destruct (proc_factors C nv v (f :: fs) (ps_pcm x) ([], false)) as [p1 [lcs opt]|p1 e1|u]; auto.
  2:{ cbn [ps_pcm]. rewrite HP. auto. }
  cbn [fst] in HP. destruct HP as [HP HL].
  match goal with |- match match ?r with _ => _ end with _ => _ end => assert (HR' : match r with Val (p3, _) => named (p_lcs p3) | Bad _ => True end); [|destruct r as [[p3 opt']|u]; auto] end.
  { rewrite <- HP in HN. destruct lcs as [|l lcs]; auto. unfold parse_all.
    destruct (rfold (parse_one C v) (l :: lcs) (p1, [])) as [[p2 nn]|] eqn:E; [|exact I]. cbn [rbind].
    destruct (parse_all_named v (l :: lcs) p1 p2 [] nn HL E HN ltac:(constructor)) as [A B].
    destruct (if c_incremental C then _ else _) as [p3|] eqn:E3; [|exact I]. cbn [rbind]. eapply find_named; eauto. }
  destruct (c_align C && _); [|exact HR'].
  match goal with |- match match ?r with _ => _ end with _ => _ end => destruct r as [v1 []|v1 e1|u]; auto end.
Qed.

Definition lcs_named (s : solver) : Prop := match s_pcm s with Some p => named (p_lcs p) | None => True end.

Lemma step_named o (s : solver) : named_graph (match o with OpUpdate fs _ _ | OpForce fs _ => fs | _ => [] end) -> lcs_named s ->
  match step C W o s with Ok s' _ | Throw s' _ => lcs_named s' | Undef _ => True end.
Proof.
  unfold lcs_named. intros HG HN.
  assert (HO : forall s1 : solver, lcs_named s1 -> match optimize C W s1 with Ok s' _ | Throw s' _ => lcs_named s' | Undef _ => True end).
  { unfold lcs_named. intros s1 H. pose proof (optimize_opt s1) as X. destruct (optimize C W s1); cbn in X; auto; [rewrite X; auto|destruct X as [-> _]; auto]. }
  assert (HI : forall fs vs, named_graph fs -> match ingest C W fs vs s with Ok s' _ | Throw s' _ => lcs_named s' | Undef _ => True end).
  { intros fs vs H. unfold ingest, lcs_named. destruct (s_pcm s) as [p|] eqn:Ep.
    - unfold run_pcm. pose proof (remove_outliers_named fs vs (PSt p (s_nfg s) (s_vals s)) H HN) as X.
      destruct (remove_outliers C (so_pcm W) fs vs _); auto.
    - unfold add_and_check. destruct (vinsert_all vs _) as [v []|v e|u]; auto.
      + destruct fs as [|[f|] [|g fs]]; cbn [s_pcm set_vals set_nfg set_pnv]; rewrite ?Ep; auto.
      + cbn [s_pcm set_vals set_nfg set_pnv]. rewrite Ep. auto. }
  assert (HL : forall s1 : solver, lcs_named s1 -> match log_status C s1 with Ok s' _ | Throw s' _ => lcs_named s' | Undef _ => True end).
  { intros s1 H. unfold log_status. destruct (c_log C); auto. destruct (s_pcm s1) eqn:E; [|auto]. destruct (g2o_throws _); auto. }
  assert (HRM : forall id (p p' : pcm O) e, pcm_remove_last_id (so_pcm W) id p = Val (p', e) -> named (p_lcs p) -> named (p_lcs p')).
  { intros id p p' e. unfold pcm_remove_last_id. destruct (lc_find id (p_lcs p)) as [m|] eqn:E; [|intro H; injection H as <- _; auto].
    destruct (_ <=? _); [intro H; injection H as <- _; auto|]. destruct (rev (me_factors m)); [discriminate|].
    match goal with |- (let* m' := ?r in _) = _ -> _ => destruct r as [m'|]; [|discriminate] end. cbn [rbind]. intro H. injection H as <- _.
    intro HX. cbn [p_lcs set_lcs]. apply named_set; auto. eapply named_found; eauto. }
  assert (HD : forall x, (forall p e, x = Val (p, e) -> named (p_lcs p)) -> match lift_removal W s x with Ok s' _ | Throw s' _ => lcs_named s' | Undef _ => True end).
  { intros [[p [e|]]|u] H; cbn; auto; unfold lcs_named; cbn [s_pcm set_pnv]; eapply H; eauto. }
  destruct o as [fs vs opt|fs vs|c opt|a b| |c|c|fs vs|fs vs|]; cbn [step]; unfold no_ret, edge_ret.
  - unfold update. specialize (HI fs vs HG). destruct (ingest C W fs vs s) as [s1 b|s1 e|u]; cbn [obind]; auto.
    assert (X : match (if b && opt then optimize C W s1 else Ok s1 tt) with Ok s' _ | Throw s' _ => lcs_named s' | Undef _ => True end)
      by (destruct (b && opt); [apply HO|]; auto).
    destruct (if b && opt then _ else _) as [s2 []|s2 e|u]; cbn [obind]; auto.
    destruct opt; [|exact X]. specialize (HL s2 X). destruct (log_status C s2); cbn [obind]; auto.
  - unfold force_update. specialize (HI fs vs HG). destruct (ingest C W fs vs s) as [s1 b|s1 e|u]; cbn [obind]; auto.
    specialize (HO s1 HI). destruct (optimize C W s1) as [s2 []|s2 e|u]; cbn [obind]; auto.
    specialize (HL s2 HO). destruct (log_status C s2); cbn [obind]; auto.
  - unfold remove_priors.
    match goal with |- context [if opt then optimize C W ?s1 else _] => assert (H1 : lcs_named s1) end.
    { unfold lcs_named. destruct (s_pcm s) as [p|] eqn:Ep; cbn [s_pcm set_pnv set_nfg]; [exact HN|rewrite Ep; auto]. }
    destruct opt; [|cbn [obind]; exact H1]. specialize (HO _ H1). destruct (optimize C W _); cbn [obind]; auto.
  - unfold remove_last_id. destruct (s_pcm s) as [p|] eqn:Ep.
    + match goal with |- context [lift_removal W s ?x] => specialize (HD x); destruct (lift_removal W s x) as [s1 e1|s1 e1|u] end; cbn [obind]; auto.
      * assert (H1 : lcs_named s1) by (apply HD; intros; eapply HRM; eauto). specialize (HO s1 H1). destruct (optimize C W s1); cbn [obind]; auto.
      * apply HD. intros; eapply HRM; eauto.
    + unfold remove_last_factor. destruct (rev (s_nfg s)) as [|[f|] l]; cbn [obind]; auto. destruct (f_keys f); cbn [obind]; auto.
      match goal with |- context [optimize C W ?s1] => assert (H1 : lcs_named s1) by (unfold lcs_named; cbn [s_pcm set_nfg set_pnv]; rewrite Ep; auto); specialize (HO _ H1); destruct (optimize C W s1) end; cbn [obind]; auto.
  - unfold remove_last. destruct (s_pcm s) as [p|] eqn:Ep.
    + assert (HX : forall p' e, pcm_remove_last (so_pcm W) p = Val (p', e) -> named (p_lcs p')).
      { intros p' e. unfold pcm_remove_last. destruct (rev (p_order p)); [intro H; injection H as <- _; auto|]. intro H. eapply HRM; eauto. }
      match goal with |- context [lift_removal W s ?x] => specialize (HD x HX); destruct (lift_removal W s x) as [s1 e1|s1 e1|u] end; cbn [obind]; auto.
      specialize (HO s1 HD). destruct (optimize C W s1); cbn [obind]; auto.
    + unfold remove_last_factor. destruct (rev (s_nfg s)) as [|[f|] l]; cbn [obind]; auto. destruct (f_keys f); cbn [obind]; auto.
      match goal with |- context [optimize C W ?s1] => assert (H1 : lcs_named s1) by (unfold lcs_named; cbn [s_pcm set_nfg set_pnv]; rewrite Ep; auto); specialize (HO _ H1); destruct (optimize C W s1) end; cbn [obind]; auto.
  - unfold ignore_prefix. assert (H1 : lcs_named (with_pcm W (pcm_ignore c) s)).
    { unfold with_pcm, lcs_named. destruct (s_pcm s) as [p|] eqn:Ep; [|rewrite Ep; auto]. cbn [s_pcm set_pnv].
      unfold pcm_ignore. destruct (existsb _ _); auto. }
    specialize (HO _ H1). destruct (optimize C W _); cbn [obind]; auto.
  - unfold revive_prefix. assert (H1 : lcs_named (with_pcm W (pcm_revive c) s)).
    { unfold with_pcm, lcs_named. destruct (s_pcm s) as [p|] eqn:Ep; [|rewrite Ep; auto]. exact HN. }
    specialize (HO _ H1). destruct (optimize C W _); cbn [obind]; auto.
  - unfold temp_update. destruct (vinsert_all vs (s_tvals s)); cbn [obind]; auto.
  - unfold temp_replace. cbn [obind]. auto.
  - unfold temp_clear. cbn [obind]. auto.
Qed.

Definition named_call (o : op O) : Prop := named_graph (match o with OpUpdate fs _ _ | OpForce fs _ => fs | _ => [] end).

Lemma events_named h : Forall (fun x => named_call (fst x)) h -> forall s : solver, lcs_named s ->
  Forall (fun e => lcs_named (ev_after e)) (events C W h s).
Proof.
  induction 1 as [|[o t] h Ho _ IH]; intros s Hs; cbn [events]; [constructor|].
  pose proof (step_named o s Ho Hs) as H. destruct (step C W o s); constructor; auto.
Qed.

Lemma init_named b : lcs_named (solver_init b).
Proof. unfold lcs_named. destruct b; cbn; auto. split; constructor. Qed.
End Names.

(** *** The status file *)

Lemma log_spin_fixed n t p d : fixed n -> n <> rejection_name -> log_spin F t p d (in_folder n) = d (in_folder n).
Proof.
  intros H Hn. unfold log_spin. rewrite add_text_at. change (rejection_path F) with (in_folder rejection_name).
  rewrite c_str_in. destruct (String.eqb_spec (in_folder n) (in_folder (c_str rejection_name))) as [E|_]; auto.
  apply in_folder_inj in E. exfalso. apply Hn. exact E.
Qed.

Lemma add_status_at n l d : fixed n -> add_text F (status_path F) l d (in_folder n) =
  if String.eqb n status_name then Some (append (match d (in_folder n) with Some u => u | None => EmptyString end) l) else d (in_folder n).
Proof.
  intro H. destruct (fixed_opens n H) as [H1 H2]. rewrite add_text_at. change (status_path F) with (in_folder status_name).
  rewrite c_str_in. change (c_str status_name) with status_name. destruct (String.eqb_spec n status_name) as [E|E].
  - subst n. rewrite String.eqb_refl, H2. auto.
  - destruct (String.eqb_spec (in_folder n) (in_folder status_name)) as [E'|_]; auto. apply in_folder_inj in E'. congruence.
Qed.

Lemma saved_at n s d : fixed n -> n <> result_name -> n <> weights_name -> saved s d (in_folder n) = d (in_folder n).
Proof.
  intros H H1 H2. unfold saved. destruct (renders_save HR s d) as [ls ->].
  assert (HX : forall m t d, m = result_name \/ m = weights_name -> create F (in_folder m) t d (in_folder n) = d (in_folder n)).
  { intros m t d0 Hm. rewrite create_fixed by auto. destruct (String.eqb_spec n (c_str m)) as [E|_]; auto. exfalso.
    destruct Hm as [-> | ->]; [apply H1|apply H2]; exact E. }
  change (result_path F) with (in_folder result_name). change (weights_path F) with (in_folder weights_name).
  destruct (g2o_throws (s_nfg s)); [apply HX; auto|]. destruct (c_gnc C); [|apply HX; auto].
  rewrite HX by auto. apply HX; auto.
Qed.

Lemma status_fixed : fixed status_name. Proof. left; auto. Qed.
Lemma rejection_fixed : fixed rejection_name. Proof. right; left; auto. Qed.
Lemma result_fixed : fixed result_name. Proof. right; right; left; auto. Qed.
Lemma weights_fixed : fixed weights_name. Proof. right; right; right; auto. Qed.

Lemma effect_status e d : effect e d (in_folder status_name) =
  if logged e && c_log C then Some (append (match d (in_folder status_name) with Some u => u | None => EmptyString end) (line_of (ev_took e) (ev_after e)))
  else d (in_folder status_name).
Proof.
  unfold effect.
  set (d1 := if rejected C W e && c_log C then _ else d).
  assert (H1 : d1 (in_folder status_name) = d (in_folder status_name)).
  { unfold d1. destruct (rejected C W e && c_log C); auto. destruct (s_pcm (ev_after e)); auto.
    rewrite log_spin_fixed by (discriminate || apply status_fixed). apply save_adj_fixed. apply status_fixed. }
  destruct (logged e && c_log C); auto.
  rewrite saved_at by (discriminate || apply status_fixed). rewrite add_status_at by apply status_fixed.
  rewrite String.eqb_refl, H1. auto.
Qed.

Definition status_words (e : event O) : list string :=
  [nat_text (N.of_nat (length (s_nfg (ev_after e)))); int_text (tk_call (ev_took e));
   nat_text (N.of_nat (match get_num_lc (ev_after e) with Val n => n | Bad _ => 0 end));
   int_text (match get_num_inliers C (ev_after e) with Val n => n | Bad _ => 0%Z end)].

Lemma status_line_words e : s_pcm (ev_after e) <> None ->
  line_of (ev_took e) (ev_after e) = append (String.concat "," (status_words e)) newline.
Proof.
  intro H. unfold line_of, status_line, status_words, get_num_lc, get_num_inliers.
  destruct (s_pcm (ev_after e)); [|congruence]. destruct (c_gnc C); reflexivity.
Qed.

Lemma status_words_fields e : fields "," (status_words e).
Proof.
  unfold fields, status_words. split; [discriminate|].
  split; cbn [forallb]; rewrite !lacks_nat, !lacks_int by (reflexivity || discriminate); auto.
Qed.

Lemma status_words_row e : row_says (status_words e) (status_row C e).
Proof.
  unfold row_says, status_words, status_row. cbn [map]. rewrite !read_int_nat, !read_int_text, !nat_N_Z.
  destruct (get_num_lc (ev_after e)), (get_num_inliers C (ev_after e)); reflexivity.
Qed.

Lemma status_fold l : Forall genuine l -> c_log C = true -> forall d ls, d (in_folder status_name) = Some (table_text "," ls) ->
  fold_left (fun d e => effect e d) l d (in_folder status_name) = Some (table_text "," (ls ++ map status_words (filter (@logged O) l))).
Proof.
  intros HG HC. induction HG as [|e l He _ IH]; intros d ls Hd; cbn [fold_left filter map].
  - rewrite app_nil_r. auto.
  - pose proof (effect_status e d) as HE. rewrite HC, andb_true_r in HE. destruct (logged e) eqn:HL.
    + rewrite (IH (effect e d) (ls ++ [status_words e])).
      * cbn [map]. rewrite <- app_assoc. auto.
      * rewrite HE, Hd. f_equal. rewrite status_line_words by (apply genuine_pcm; auto). apply table_snoc.
    + apply IH. rewrite HE. auto.
Qed.

Definition status_header : list string := ["graph-size"; "spin-time(mu-s)"; "num-lc"; "num-inliers"]%string.

Lemma init_status b d : c_log C = true -> log_init C F b d (in_folder status_name) = Some (table_text "," [status_header]).
Proof.
  intro H. unfold log_init. rewrite H. change (status_path F) with (in_folder status_name). rewrite create_fixed by apply status_fixed.
  reflexivity.
Qed.

Lemma Forall2_map_l {A B D} (R : B -> D -> Prop) (f : A -> B) (g : A -> D) l : (forall x, R (f x) (g x)) -> Forall2 R (map f l) (map g l).
Proof. intro H. induction l; constructor; auto. Qed.

Theorem status_file b h d s d' : c_log C = true -> session C W F b h d = Val (s, d') ->
  exists text ls, d' (append (pl_folder F) "/rpgo_status.csv") = Some text /\
    read_table "," text = status_header :: ls /\ Forall2 row_says ls (status_rows C (events C W h (solver_init b))).
Proof.
  intros HC HS. pose proof (session_effect b h d) as H. rewrite HS in H. destruct H as (_ & -> & _).
  set (l := events C W h (solver_init b)).
  exists (table_text "," ([status_header] ++ map status_words (filter (@logged O) l))), (map status_words (filter (@logged O) l)).
  split; [|split].
  - change (append (pl_folder F) "/rpgo_status.csv") with (in_folder status_name).
    apply status_fold; auto; [apply events_genuine|apply init_status; auto].
  - rewrite read_table_text; [reflexivity|discriminate|]. constructor.
    + unfold fields. split; [discriminate|]. split; reflexivity.
    + apply Forall_forall. intros x Hx. apply in_map_iff in Hx. destruct Hx as (e & <- & _). apply status_words_fields.
  - unfold status_rows. apply Forall2_map_l. apply status_words_row.
Qed.

(** *** The file of the outlier rejection *)

Definition rejection_words (t : took) (p : pcm O) : list string :=
  [nat_text (N.of_nat (p_total p)); nat_text (N.of_nat (p_good p)); int_text (tk_spin t); int_text (tk_clique t)].

Lemma effect_rejection e d : effect e d (in_folder rejection_name) =
  if rejected C W e && c_log C then
    match s_pcm (ev_after e) with
    | Some p => Some (append (match d (in_folder rejection_name) with Some u => u | None => EmptyString end)
                        (append (String.concat " " (rejection_words (ev_took e) p)) newline))
    | None => d (in_folder rejection_name)
    end
  else d (in_folder rejection_name).
Proof.
  unfold effect.
  set (d1 := if rejected C W e && c_log C then _ else d).
  assert (H0 : (if logged e && c_log C then saved (ev_after e) (add_text F (status_path F) (line_of (ev_took e) (ev_after e)) d1) else d1) (in_folder rejection_name) = d1 (in_folder rejection_name)).
  { destruct (logged e && c_log C); auto. rewrite saved_at by (discriminate || apply rejection_fixed).
    rewrite add_status_at by apply rejection_fixed. reflexivity. }
  rewrite H0. unfold d1. destruct (rejected C W e && c_log C); auto. destruct (s_pcm (ev_after e)) as [p|]; auto.
  unfold log_spin. rewrite add_text_at. change (rejection_path F) with (in_folder rejection_name). rewrite c_str_in.
  change (c_str rejection_name) with rejection_name. rewrite String.eqb_refl.
  destruct (fixed_opens _ rejection_fixed) as [_ ->]. cbn [andb]. rewrite save_adj_fixed by apply rejection_fixed. auto.
Qed.

(** With outlier rejection there always is a PCM. *)
Definition rejection_line (e : event O) : list (list string) :=
  match s_pcm (ev_after e) with Some p => [rejection_words (ev_took e) p] | None => [] end.

Lemma rejection_fold l : c_log C = true -> forall d ls, d (in_folder rejection_name) = Some (table_text " " ls) ->
  fold_left (fun d e => effect e d) l d (in_folder rejection_name) = Some (table_text " " (ls ++ flat_map rejection_line (filter (rejected C W) l))).
Proof.
  intros HC. induction l as [|e l IH]; intros d ls Hd; cbn [fold_left filter flat_map].
  - rewrite app_nil_r. auto.
  - pose proof (effect_rejection e d) as HE. rewrite HC, andb_true_r in HE. destruct (rejected C W e) eqn:HL.
    + rewrite (IH (effect e d) (ls ++ rejection_line e)).
      * cbn [flat_map]. rewrite <- app_assoc. auto.
      * rewrite HE, Hd. unfold rejection_line. destruct (s_pcm (ev_after e)); [f_equal; apply table_snoc|rewrite app_nil_r; auto].
    + apply IH. rewrite HE. auto.
Qed.

Lemma step_has_pcm o (s : solver) : s_pcm s <> None -> match step C W o s with Ok s' _ | Throw s' _ => s_pcm s' <> None | Undef _ => True end.
Proof.
  intro Hp.
  assert (HO : forall s1 : solver, s_pcm s1 <> None -> match optimize C W s1 with Ok s' _ | Throw s' _ => s_pcm s' <> None | Undef _ => True end).
  { intros s1 H. pose proof (optimize_opt s1) as X. destruct (optimize C W s1); cbn in X; auto; [congruence|destruct X; congruence]. }
  assert (HI : forall fs vs, match ingest C W fs vs s with Ok s' _ | Throw s' _ => s_pcm s' <> None | Undef _ => True end).
  { intros fs vs. unfold ingest. destruct (s_pcm s); [|congruence]. unfold run_pcm.
    destruct (remove_outliers C (so_pcm W) fs vs _); auto; discriminate. }
  assert (HL : forall s1 : solver, s_pcm s1 <> None -> match log_status C s1 with Ok s' _ | Throw s' _ => s_pcm s' <> None | Undef _ => True end).
  { intros s1 H. unfold log_status. destruct (c_log C); auto. destruct (s_pcm s1) eqn:E; [|auto]. destruct (g2o_throws _); congruence. }
  assert (HD : forall x, match lift_removal W s x with Ok s' _ | Throw s' _ => s_pcm s' <> None | Undef _ => True end).
  { intros [[p [e|]]|u]; cbn; auto; discriminate. }
  destruct o as [fs vs opt|fs vs|c opt|a b| |c|c|fs vs|fs vs|]; cbn [step]; unfold no_ret, edge_ret.
  - unfold update. specialize (HI fs vs). destruct (ingest C W fs vs s) as [s1 b|s1 e|u]; cbn [obind]; auto.
    assert (X : match (if b && opt then optimize C W s1 else Ok s1 tt) with Ok s' _ | Throw s' _ => s_pcm s' <> None | Undef _ => True end)
      by (destruct (b && opt); [apply HO|]; auto).
    destruct (if b && opt then _ else _) as [s2 []|s2 e|u]; cbn [obind]; auto.
    destruct opt; [|exact X]. specialize (HL s2 X). destruct (log_status C s2); cbn [obind]; auto.
  - unfold force_update. specialize (HI fs vs). destruct (ingest C W fs vs s) as [s1 b|s1 e|u]; cbn [obind]; auto.
    specialize (HO s1 HI). destruct (optimize C W s1) as [s2 []|s2 e|u]; cbn [obind]; auto.
    specialize (HL s2 HO). destruct (log_status C s2); cbn [obind]; auto.
  - unfold remove_priors. destruct (s_pcm s) as [p|] eqn:Ep; [|congruence].
    destruct opt; [|cbn [obind]; discriminate].
    match goal with |- context [optimize C W ?s1] => assert (H1 : s_pcm s1 <> None) by discriminate; specialize (HO s1 H1); destruct (optimize C W s1) end; cbn [obind]; auto.
  - unfold remove_last_id. destruct (s_pcm s) as [p|] eqn:Ep; [|congruence].
    match goal with |- context [lift_removal W s ?x] => specialize (HD x); destruct (lift_removal W s x) as [s1 e1|s1 e1|u] end; cbn [obind]; auto.
    specialize (HO s1 HD). destruct (optimize C W s1); cbn [obind]; auto.
  - unfold remove_last. destruct (s_pcm s) as [p|] eqn:Ep; [|congruence].
    match goal with |- context [lift_removal W s ?x] => specialize (HD x); destruct (lift_removal W s x) as [s1 e1|s1 e1|u] end; cbn [obind]; auto.
    specialize (HO s1 HD). destruct (optimize C W s1); cbn [obind]; auto.
  - unfold ignore_prefix, with_pcm. destruct (s_pcm s) as [p|] eqn:Ep; [|congruence].
    match goal with |- context [optimize C W ?s1] => assert (H1 : s_pcm s1 <> None) by discriminate; specialize (HO s1 H1); destruct (optimize C W s1) end; cbn [obind]; auto.
  - unfold revive_prefix, with_pcm. destruct (s_pcm s) as [p|] eqn:Ep; [|congruence].
    match goal with |- context [optimize C W ?s1] => assert (H1 : s_pcm s1 <> None) by discriminate; specialize (HO s1 H1); destruct (optimize C W s1) end; cbn [obind]; auto.
  - unfold temp_update. destruct (vinsert_all vs (s_tvals s)); cbn [obind]; auto.
  - unfold temp_replace. cbn [obind]. auto.
  - unfold temp_clear. cbn [obind]. auto.
Qed.

Lemma events_pcm h : forall s : solver, s_pcm s <> None -> Forall (fun e => s_pcm (ev_after e) <> None) (events C W h s).
Proof.
  induction h as [|[o t] h IH]; intros s Hs; cbn [events]; [constructor|].
  pose proof (step_has_pcm o s Hs) as H. destruct (step C W o s); constructor; auto.
Qed.

Definition rejection_header : list string := ["total"; "inliers"; "spin-time"; "mc-time"]%string.

Theorem rejection_file h d s d' : c_log C = true -> session C W F true h d = Val (s, d') ->
  exists text ls, d' (append (pl_folder F) "/outlier_rejection_status.txt") = Some text /\
    read_table " " text = rejection_header :: ls /\ Forall2 row_says ls (rejection_rows C W (events C W h (solver_init true))).
Proof.
  intros HC HS. pose proof (session_effect true h d) as H. rewrite HS in H. destruct H as (_ & -> & _).
  pose proof (events_pcm h (solver_init true)) as HP. specialize (HP ltac:(discriminate)).
  set (l := events C W h (solver_init true)) in *.
  exists (table_text " " ([rejection_header] ++ flat_map rejection_line (filter (rejected C W) l))), (flat_map rejection_line (filter (rejected C W) l)).
  split; [|split].
  - change (append (pl_folder F) "/outlier_rejection_status.txt") with (in_folder rejection_name).
    apply rejection_fold; auto. unfold log_init. rewrite HC. change (status_path F) with (in_folder status_name).
    rewrite create_fixed by apply rejection_fixed. change (String.eqb rejection_name (c_str status_name)) with false. cbn iota.
    change (rejection_path F) with (in_folder rejection_name). rewrite create_fixed by apply rejection_fixed. reflexivity.
  - rewrite read_table_text; [reflexivity|discriminate|]. constructor.
    + unfold fields. split; [discriminate|]. split; reflexivity.
    + apply Forall_forall. intros x Hx. apply in_flat_map in Hx. destruct Hx as (e & _ & Hx). unfold rejection_line in Hx.
      destruct (s_pcm (ev_after e)) as [p|]; [|destruct Hx]. destruct Hx as [<-|[]]. unfold fields, rejection_words. split; [discriminate|].
      split; cbn [forallb]; rewrite !lacks_nat, !lacks_int by (reflexivity || discriminate); auto.
  - unfold rejection_rows. assert (HP' : Forall (fun e => s_pcm (ev_after e) <> None) (filter (rejected C W) l)).
    { apply Forall_forall. intros e He. apply filter_In in He. rewrite Forall_forall in HP. apply HP. tauto. }
    clear - HP'. induction HP' as [|e l0 He _ IH]; cbn [flat_map map]; [constructor|].
    unfold rejection_line at 1. unfold rejection_row at 1. destruct (s_pcm (ev_after e)) as [p|]; [|congruence]. constructor; auto.
    unfold row_says, rejection_words. cbn [map]. rewrite !read_int_nat, !read_int_text, !nat_N_Z. auto.
Qed.
(** *** Matrices *)

Lemma without_adj id : nameable (fst id) -> nameable (snd id) -> without "000" (adj_name id) /\ without "/" (adj_name id).
Proof.
  assert (H : forall c, nameable c -> ascii_of_N c <> "000"%char /\ ascii_of_N c <> "/"%char).
  { intros c [H1 H2]. split; intro E; apply (f_equal N_of_ascii) in E; rewrite N_ascii_embedding in E by tauto; cbn in E; lia. }
  intros H1 H2. apply H in H1. apply H in H2. unfold adj_name. cbn [append without]. repeat split; try tauto; discriminate.
Qed.

Lemma pair_file_eq id : pair_file F id = in_folder (adj_name id).
Proof. reflexivity. Qed.

Lemma adj_name_inj id id' : nameable (fst id) -> nameable (snd id) -> (fst id' < 256)%N -> (snd id' < 256)%N ->
  c_str (adj_name id') = adj_name id -> id' = id.
Proof.
  intros [A1 _] [A2 _] B1 B2. unfold adj_name. destruct id as [a b], id' as [a' b']. cbn [fst snd] in *. cbn [append].
  destruct (Ascii.eqb_spec (ascii_of_N a') "000") as [E|E].
  - cbn [c_str]. rewrite E. discriminate.
  - cbn [c_str]. destruct (Ascii.eqb_spec (ascii_of_N a') "000"); [congruence|].
    change (Ascii.eqb "-" "000") with false. cbn iota. destruct (Ascii.eqb_spec (ascii_of_N b') "000"); [discriminate|].
    intro H. injection H as H1 H2. f_equal.
    + rewrite <- (N_ascii_embedding a'), <- (N_ascii_embedding a) by lia. congruence.
    + rewrite <- (N_ascii_embedding b'), <- (N_ascii_embedding b) by lia. congruence.
Qed.

Lemma save_adj_hit p d id m : named (fun c => (c < 256)%N) (p_lcs p) -> In (id, m) (p_lcs p) -> nameable (fst id) -> nameable (snd id) ->
  save_adj W F p d (pair_file F id) = Some (adj_text (me_adj m)).
Proof.
  intros [HD HN] HI H1 H2. rewrite pair_file_eq. unfold save_adj.
  destruct (without_adj id H1 H2) as [N0 NS].
  assert (HO : pl_opens F (in_folder (adj_name id)) = true) by (apply (fo_files HF); auto; discriminate).
  pose proof (uiter_perm (w_lc_order (so_pcm W)) (p_lcs p)) as HP.
  assert (HI' : In (id, m) (uiter (w_lc_order (so_pcm W)) (p_lcs p))) by (eapply Permutation_in; [symmetry; apply HP|auto]).
  assert (HU : forall x, In x (uiter (w_lc_order (so_pcm W)) (p_lcs p)) -> c_str (adj_name (fst x)) = adj_name id -> x = (id, m)).
  { intros x Hx Hc. apply (Permutation_in _ HP) in Hx. rewrite Forall_forall in HN. pose proof (HN _ Hx) as [B1 B2].
    apply adj_name_inj in Hc; auto. destruct x as [k v]. cbn [fst] in Hc. subst k.
    pose proof (distinct_ufind oid_eqb_refl oid_eqb_sym _ _ HD Hx) as E1.
    pose proof (distinct_ufind oid_eqb_refl oid_eqb_sym _ _ HD HI) as E2. congruence. }
  clear HP HI HN HD. revert d HI' HU. induction (uiter _ (p_lcs p)) as [|x l IH]; intros d HI HU; [destruct HI|].
  cbn [fold_left].
  assert (HS : forall l d, (forall y, In y l -> y = (id, m) \/ c_str (adj_name (fst y)) <> adj_name id) -> d (in_folder (adj_name id)) = Some (adj_text (me_adj m)) ->
    fold_left (fun d e => create F (adj_path F (fst e)) (adj_text (me_adj (snd e))) d) l d (in_folder (adj_name id)) = Some (adj_text (me_adj m))).
  { clear - HF. induction l as [|y l IH]; intros d H Hd; auto. cbn [fold_left]. apply IH; [intros; apply H; right; auto|].
    rewrite create_at, adj_path_eq, c_str_in. destruct (String.eqb_spec (in_folder (adj_name id)) (in_folder (c_str (adj_name (fst y))))) as [E|_]; auto.
    apply in_folder_inj in E. destruct (H y (or_introl eq_refl)) as [->|H']; [|congruence].
    destruct (pl_opens F _); auto. }
  destruct HI as [->|HI].
  - apply HS.
    + intros y Hy. destruct (String.eqb_spec (c_str (adj_name (fst y))) (adj_name id)) as [E|E]; auto. left. apply HU; auto. right; auto.
    + cbn [fst snd]. rewrite create_at, adj_path_eq, c_str_in, c_str_id, String.eqb_refl, HO by auto. reflexivity.
  - apply IH; auto. intros y Hy. apply HU. right. auto.
Qed.

(** Files other than the four fixed ones are written by [save_adj] only. *)
Lemma log_spin_other q t p d : ~ fixed_file F q -> log_spin F t p d q = d q.
Proof.
  intro H. unfold log_spin. rewrite add_text_at. change (rejection_path F) with (in_folder rejection_name). rewrite c_str_in.
  destruct (String.eqb_spec q (in_folder (c_str rejection_name))) as [E|_]; auto. exfalso. apply H. rewrite E. right. left. reflexivity.
Qed.

Lemma saved_other q s d : ~ fixed_file F q -> saved s d q = d q.
Proof.
  intro H. unfold saved. destruct (renders_save HR s d) as [ls ->].
  assert (HX : forall m t d, m = result_name \/ m = weights_name -> create F (in_folder m) t d q = d q).
  { intros m t d0 Hm. rewrite create_at, c_str_in. destruct (String.eqb_spec q (in_folder (c_str m))) as [E|_]; auto. exfalso. apply H. rewrite E.
    destruct Hm as [-> | ->]; [right; right; left|right; right; right; left]; reflexivity. }
  change (result_path F) with (in_folder result_name). change (weights_path F) with (in_folder weights_name).
  destruct (g2o_throws (s_nfg s)); [apply HX; auto|]. destruct (c_gnc C); [|apply HX; auto].
  rewrite HX by auto. apply HX; auto.
Qed.

Lemma effect_other q e d : ~ fixed_file F q -> effect e d q =
  if rejected C W e && c_log C then match s_pcm (ev_after e) with Some p => save_adj W F p d q | None => d q end else d q.
Proof.
  intro H. unfold effect.
  set (d1 := if rejected C W e && c_log C then _ else d).
  assert (H0 : (if logged e && c_log C then saved (ev_after e) (add_text F (status_path F) (line_of (ev_took e) (ev_after e)) d1) else d1) q = d1 q).
  { destruct (logged e && c_log C); auto. rewrite saved_other by auto. rewrite add_text_at. change (status_path F) with (in_folder status_name).
    rewrite c_str_in. destruct (String.eqb_spec q (in_folder (c_str status_name))) as [E|_]; auto. exfalso. apply H. rewrite E. left. reflexivity. }
  rewrite H0. unfold d1. destruct (rejected C W e && c_log C); auto. destruct (s_pcm (ev_after e)); auto. apply log_spin_other; auto.
Qed.

Lemma init_other q b d : ~ fixed_file F q -> log_init C F b d q = d q.
Proof.
  intro H. unfold log_init. destruct (c_log C); auto. change (status_path F) with (in_folder status_name). change (rejection_path F) with (in_folder rejection_name).
  rewrite create_at, c_str_in. destruct (String.eqb_spec q (in_folder (c_str status_name))) as [E|_]; [exfalso; apply H; rewrite E; left; reflexivity|].
  cbn [andb]. destruct b; auto. rewrite create_at, c_str_in. destruct (String.eqb_spec q (in_folder (c_str rejection_name))) as [E|_]; auto.
  exfalso. apply H. rewrite E. right; left. reflexivity.
Qed.

Lemma pair_not_fixed id : ~ fixed_file F (pair_file F id).
Proof.
  rewrite pair_file_eq. intro H. unfold fixed_file in H. cbn [map In] in H.
  repeat (destruct H as [H|H]; [apply (in_folder_inj _ (adj_name id)) in H; unfold adj_name in H; cbn [append] in H; discriminate H|]). destruct H.
Qed.

Lemma names_named (P : BinNums.N -> Prop) (Q : key -> Prop) h : names_only Q h -> (forall k, Q k -> P (chr k)) -> Forall (fun x => named_call P (fst x)) h.
Proof.
  intros H HQ. apply Forall_forall. intros [o t] Hi. unfold named_call, named_graph. cbn [fst].
  apply Forall_forall. intros [f|] Hf; auto. destruct f as [b| | |]; auto. 
  assert (HB : Q (b_from b) /\ Q (b_to b)) by (apply (H o t b Hi); destruct o; auto).
  split; apply HQ; tauto.
Qed.

Lemma machine_chr k : machine_key k -> (chr k < 256)%N.
Proof. unfold machine_key, chr, idx_mod. intro H. apply N.div_lt_upper_bound; [discriminate|]. exact H. Qed.

(** The last rejection decides. *)
Theorem matrix_file h d s d' l1 e l2 p id m : c_log C = true -> session C W F true h d = Val (s, d') -> names_only machine_key h ->
  events C W h (solver_init true) = l1 ++ e :: l2 -> rejected C W e = true -> Forall (fun x => rejected C W x = false) l2 ->
  s_pcm (ev_after e) = Some p -> lc_find id (p_lcs p) = Some m -> nameable (fst id) -> nameable (snd id) ->
  exists id' text, oid_eqb id id' = true /\ d' (pair_file F id') = Some text /\ read_bits text = Some (bits_of (me_adj m)).
Proof.
  intros HC HS HM HE HR1 HR2 HP HF1 N1 N2. pose proof (session_effect true h d) as H. rewrite HS in H. destruct H as (_ & -> & _).
  apply ufind_In in HF1. destruct HF1 as (id' & Ho & Hin). exists id', (adj_text (me_adj m)). split; [exact Ho|]. split; [|apply adj_read].
  pose proof (events_named (fun c => (c < 256)%N) h (names_named _ _ h HM machine_chr) _ (init_named _ true)) as HN.
  assert (Hn : nameable (fst id') /\ nameable (snd id')).
  { apply oid_eqb_spec in Ho. destruct Ho as [[<- <-]|[E1 E2]]; [tauto|]. rewrite <- E1, <- E2. tauto. }
  rewrite HE in HN. apply Forall_app in HN. destruct HN as [_ HN]. inversion HN as [|? ? HN1 _]; subst. unfold lcs_named in HN1. rewrite HP in HN1.
  rewrite HE, fold_left_app. cbn [fold_left].
  assert (HT : forall l d0, Forall (fun x => rejected C W x = false) l -> fold_left (fun d e => effect e d) l d0 (pair_file F id') = d0 (pair_file F id')).
  { clear - HR HF. induction l as [|x l IH]; intros d0 H; auto. cbn [fold_left]. inversion H as [|? ? Hx H2]; subst. rewrite IH by auto.
    rewrite effect_other by apply pair_not_fixed. rewrite Hx. reflexivity. }
  rewrite HT by auto. rewrite effect_other by apply pair_not_fixed. rewrite HR1, HC, HP. cbn [andb].
  apply save_adj_hit; tauto.
Qed.

(** What else can be written. *)
Theorem only_pair_files b h d s d' q : session C W F b h d = Val (s, d') -> ~ fixed_file F q -> d' q <> d q ->
  c_log C = true /\ pl_opens F q = true /\ exists e p id m, In e (events C W h (solver_init b)) /\ rejected C W e = true /\ s_pcm (ev_after e) = Some p /\
    In (id, m) (p_lcs p) /\ q = c_str (pair_file F id).
Proof.
  intros HS Hq. pose proof (session_effect b h d) as H. rewrite HS in H. destruct H as (_ & -> & _). rewrite <- (init_other q b d Hq). clear HS.
  generalize (log_init C F b d) as d0. induction (events C W h (solver_init b)) as [|e l IH]; intros d0 H; [exfalso; apply H; reflexivity|].
  cbn [fold_left] in H.
  assert (HD : {effect e d0 q = d0 q} + {effect e d0 q <> d0 q}) by (decide equality; apply String.string_dec).
  destruct HD as [E|E].
  - rewrite <- E in H. destruct (IH _ H) as (A1 & A2 & x & p & id & m & A3 & A4). split; auto. split; auto. exists x, p, id, m. split; [right|]; auto.
  - rewrite effect_other in E by auto. destruct (rejected C W e) eqn:ER; [|cbn [andb] in E; congruence]. destruct (c_log C) eqn:EC; [|cbn [andb] in E; congruence].
    cbn [andb] in E. destruct (s_pcm (ev_after e)) as [p|] eqn:EP; [|congruence].
    assert (HX : ~ (forall id, In id (map fst (p_lcs p)) -> q = c_str (adj_path F id) -> pl_opens F q = false)).
    { intro X. apply E. apply save_adj_other. auto. }
    assert (HY : existsb (fun x => String.eqb q (c_str (adj_path F (fst x))) && pl_opens F q) (p_lcs p) = true).
    { destruct (existsb _ (p_lcs p)) eqn:EE; auto. exfalso. apply HX. intros id Hi Eq. apply in_map_iff in Hi. destruct Hi as (x & <- & Hx).
      apply Bool.not_true_iff_false. intro Ho. apply Bool.not_true_iff_false in EE. apply EE. apply existsb_exists. exists x. split; auto.
      rewrite Ho, Eq, String.eqb_refl. auto. }
    apply existsb_exists in HY. destruct HY as ([id m] & Hx & Hy). apply andb_true_iff in Hy. destruct Hy as [Hy1 Hy2]. apply String.eqb_eq in Hy1.
    split; auto. split; auto. exists e, p, id, m. split; [left; auto|]. split; auto.
Qed.

(** Robots without a letter: no matrix is ever written. *)
Theorem plain_unsaved b h d s d' q : session C W F b h d = Val (s, d') -> names_only plain_key h -> ~ fixed_file F q -> d' q = d q.
Proof.
  intros HS HN Hq. destruct (d' q) eqn:E1, (d q) eqn:E2; auto.
  2,3: exfalso; destruct (only_pair_files b h d s d' q HS Hq) as (_ & HO & e & p & id & m & He & _ & Hp & Hi & Hqe); [congruence|].
  1: destruct (String.string_dec s0 s1) as [->|Hne]; auto; exfalso; destruct (only_pair_files b h d s d' q HS Hq) as (_ & HO & e & p & id & m & He & _ & Hp & Hi & Hqe); [congruence|].
  all: pose proof (events_named (fun c => c = 0%N) h (names_named _ _ h HN (fun k H => N.div_small k idx_mod H)) _ (init_named _ b)) as HX;
    rewrite Forall_forall in HX; specialize (HX _ He); unfold lcs_named in HX; rewrite Hp in HX; destruct HX as [_ HX]; rewrite Forall_forall in HX;
    specialize (HX _ Hi); cbn [fst] in HX; destruct id as [a c]; cbn [fst snd] in HX; destruct HX; subst a c;
    rewrite pair_file_eq, c_str_in in Hqe; change (c_str (adj_name (0, 0)%N)) with EmptyString in Hqe; subst q;
    unfold in_folder in HO; change (append "/" EmptyString) with "/"%string in HO; rewrite (fo_self HF) in HO; discriminate.
Qed.

(** *** The faithful record is on disk *)

Theorem record_on_disk h o t d s rs id : c_log C = true -> c_loop_check C = true ->
  run C W (map fst h ++ [o]) (solver_init true) = Ok s rs -> no_removal (map fst h ++ [o]) ->
  match o with OpUpdate fs _ _ | OpForce fs _ => fs <> [] | _ => False end ->
  names_only machine_key (h ++ [(o, t)]) -> nameable (fst id) -> nameable (snd id) -> pair_items C W id (map fst h ++ [o]) <> [] ->
  exists d' id' text m, session C W F true (h ++ [(o, t)]) d = Val (s, d') /\ oid_eqb id id' = true /\ d' (pair_file F id') = Some text /\
    read_bits text = Some (bits_of m) /\ faithful (@lc_test O) (pair_items C W id (map fst h ++ [o])) m.
Proof.
  intros HC HL HRun HNR Ho HM N1 N2 HI.
  destruct (@c12_pairs O C W (map fst h ++ [o]) s rs id HRun HNR HL HI) as (p & Hp & Hf & Hfa).
  assert (HE : forall hh (s0 s1 : solver) r0, run C W (map fst hh ++ [o]) s0 = Ok s1 r0 ->
    run_on C W (map fst (hh ++ [(o, t)])) s0 = Val s1 /\ exists l1 e, events C W (hh ++ [(o, t)]) s0 = l1 ++ [e] /\ ev_op e = o /\ ev_after e = s1 /\ exists r, step C W o (ev_before e) = Ok s1 r).
  { clear. induction hh as [|[o1 t1] hh IH]; intros s0 s1 r0; cbn [map fst app run run_on events].
    - destruct (step C W o s0) as [s2 r|s2 e|u] eqn:E; cbn [obind]; try discriminate. intro H. injection H as <- _. split; auto.
      exists [], (Event o t s0 s2 None). cbn. eauto.
    - destruct (step C W o1 s0) as [s2 r|s2 e|u] eqn:E; cbn [obind]; try discriminate.
      destruct (run C W (map fst hh ++ [o]) s2) as [s3 rs3|s3 e3|u3] eqn:E3; cbn [obind]; try discriminate. intro H. injection H as <- _.
      destruct (IH s2 s3 rs3 E3) as [A (l1 & e & B & D)]. split; auto. exists (Event o1 t1 s0 s2 None :: l1), e. rewrite B. auto. }
  destruct (HE h _ _ _ HRun) as [HO (l1 & e & He & Hop & Hae & r & Hstep)]. clear HE.
  pose proof (session_effect true (h ++ [(o, t)]) d) as HS.
  destruct (session C W F true (h ++ [(o, t)]) d) as [[s' d']|u] eqn:ES; [|congruence].
  destruct HS as (HS & _). assert (s' = s) by congruence. subst s'.
  assert (HRj : rejected C W e = true).
  { unfold rejected. rewrite Hop. clear He Hae. destruct o as [fs vs opt|fs vs| | | | | | | |]; try contradiction; destruct fs as [|f fs]; try congruence; cbn [step] in Hstep;
      unfold no_ret, update, force_update in Hstep; destruct (ingest C W (f :: fs) vs (ev_before e)); cbn [obind] in Hstep; auto; discriminate. }
  assert (Hlc : exists m, lc_find id (p_lcs p) = Some m /\ lc_get id (p_lcs p) = m).
  { destruct (lc_find id (p_lcs p)) as [m|] eqn:EF.
    - exists m. split; auto. unfold lc_get. rewrite EF. auto.
    - exfalso. apply HI. apply map_eq_nil with (f := fst). rewrite <- Hf. unfold lc_get. rewrite EF. auto. }
  destruct Hlc as (m & Hm1 & Hm2). rewrite Hm2 in Hfa.
  destruct (matrix_file (h ++ [(o, t)]) d s d' l1 e [] p id m) as (id' & text & A & B & D); auto.
  { rewrite Hae. auto. }
  exists d', id', text, (me_adj m). split; auto.
Qed.

(** *** The saved graph and weights *)

Lemma effect_result e d : effect e d (in_folder result_name) =
  if logged e && c_log C then
    match write_g2o (map (option_map (pl_factor F)) (s_nfg (ev_after e))) (kmapi (fun _ => pl_value F) (s_vals (ev_after e))) with
    | Ok ls _ => Some (file_text ls)
    | Throw ls _ => Some (file_text ls)
    | Undef _ => d (in_folder result_name)
    end
  else d (in_folder result_name).
Proof.
  unfold effect.
  set (d1 := if rejected C W e && c_log C then _ else d).
  assert (H1 : d1 (in_folder result_name) = d (in_folder result_name)).
  { unfold d1. destruct (rejected C W e && c_log C); auto. destruct (s_pcm (ev_after e)); auto.
    rewrite log_spin_fixed by (discriminate || apply result_fixed). apply save_adj_fixed. apply result_fixed. }
  destruct (logged e && c_log C); auto. unfold saved, save_files.
  destruct (g2o_solver O (pl_factor F) HR (s_nfg (ev_after e)) (kmapi (fun _ => pl_value F) (s_vals (ev_after e)))) as [ls ->].
  change (result_path F) with (in_folder result_name). change (weights_path F) with (in_folder weights_name).
  destruct (g2o_throws (s_nfg (ev_after e))); [rewrite create_fixed by apply result_fixed; reflexivity|].
  destruct (c_gnc C); rewrite !create_fixed by apply result_fixed; reflexivity.
Qed.

Lemma effect_weights e d : effect e d (in_folder weights_name) =
  if logged e && c_log C && c_gnc C && negb (g2o_throws (s_nfg (ev_after e))) then Some (weights_text F (s_w (ev_after e))) else d (in_folder weights_name).
Proof.
  unfold effect.
  set (d1 := if rejected C W e && c_log C then _ else d).
  assert (H1 : d1 (in_folder weights_name) = d (in_folder weights_name)).
  { unfold d1. destruct (rejected C W e && c_log C); auto. destruct (s_pcm (ev_after e)); auto.
    rewrite log_spin_fixed by (discriminate || apply weights_fixed). apply save_adj_fixed. apply weights_fixed. }
  destruct (logged e && c_log C); auto. cbn [andb]. unfold saved.
  match goal with |- context [save_files C F ?s ?d0] => destruct (renders_save HR s d0) as [ls ->] end.
  change (result_path F) with (in_folder result_name). change (weights_path F) with (in_folder weights_name).
  assert (HX : forall t, create F (in_folder result_name) t (add_text F (status_path F) (line_of (ev_took e) (ev_after e)) d1) (in_folder weights_name) = d (in_folder weights_name)).
  { intro t. rewrite create_fixed by apply weights_fixed. change (String.eqb weights_name (c_str result_name)) with false. cbn iota.
    rewrite add_status_at by apply weights_fixed. exact H1. }
  destruct (g2o_throws (s_nfg (ev_after e))), (c_gnc C); cbn [andb negb]; try apply HX.
  rewrite create_fixed by apply weights_fixed. reflexivity.
Qed.

Lemma genuine_throws e : genuine e -> logged e = true -> c_log C = true ->
  g2o_throws (s_nfg (ev_after e)) = match ev_exn e with None => false | Some _ => true end.
Proof.
  intros HG HL HC. unfold logged in HL. apply andb_true_iff in HL. destruct HL as [HL HX]. unfold genuine in HG.
  assert (HS : forall s2 : solver, match log_status C s2 with Ok s' _ => g2o_throws (s_nfg s') = false | Throw s' _ => g2o_throws (s_nfg s') = true | Undef _ => True end).
  { intro s2. unfold log_status. rewrite HC. destruct (s_pcm s2); auto. destruct (g2o_throws (s_nfg s2)) eqn:E; auto. }
  assert (HK : match step C W (ev_op e) (ev_before e) with Ok s' _ => g2o_throws (s_nfg s') = false | Throw s' InvalidArgument => g2o_throws (s_nfg s') = true | _ => True end).
  { clear HG HX. destruct (ev_op e) as [fs vs opt|fs vs| | | | | | | |]; try discriminate HL; cbn [logging step] in *; unfold no_ret; [subst opt; unfold update|unfold force_update].
    - destruct (ingest C W fs vs (ev_before e)) as [s1 b|s1 x|u] eqn:EI; cbn [obind]; auto.
      2:{ apply ingest_throw in EI. destruct x; auto; congruence. }
      assert (HO : opt_keeps s1 (if b && true then optimize C W s1 else Ok s1 tt)) by (destruct (b && true); [apply optimize_opt|reflexivity]).
      destruct (if b && true then optimize C W s1 else Ok s1 tt) as [s2 []|s2 x|u]; cbn [obind opt_keeps] in *; auto.
      2:{ destruct HO, x; auto; congruence. }
      specialize (HS s2). destruct (log_status C s2) as [s3 []|s3 x|u]; cbn [obind]; auto. destruct x; auto.
    - destruct (ingest C W fs vs (ev_before e)) as [s1 b|s1 x|u] eqn:EI; cbn [obind]; auto.
      2:{ apply ingest_throw in EI. destruct x; auto; congruence. }
      pose proof (optimize_opt s1) as HO.
      destruct (optimize C W s1) as [s2 []|s2 x|u]; cbn [obind opt_keeps] in *; auto.
      2:{ destruct HO, x; auto; congruence. }
      specialize (HS s2). destruct (log_status C s2) as [s3 []|s3 x|u]; cbn [obind]; auto. destruct x; auto. }
  destruct (ev_exn e) as [x|].
  - rewrite HG in HK. destruct x; try discriminate HX. exact HK.
  - destruct HG as [r HG]. rewrite HG in HK. exact HK.
Qed.

Lemma unlogged_fold n l d : n = result_name \/ n = weights_name -> Forall (fun x => logged x = false) l ->
  fold_left (fun d e => effect e d) l d (in_folder n) = d (in_folder n).
Proof.
  intros Hn. revert d. induction l as [|x l IH]; intros d H; auto. cbn [fold_left]. inversion H as [|? ? Hx H2]; subst. rewrite IH by auto.
  destruct Hn as [-> | ->]; [rewrite effect_result|rewrite effect_weights]; rewrite Hx; reflexivity.
Qed.

(** The last logging call decides. *)
Theorem result_file b h d s d' l1 e l2 : c_log C = true -> session C W F b h d = Val (s, d') ->
  events C W h (solver_init b) = l1 ++ e :: l2 -> logged e = true -> Forall (fun x => logged x = false) l2 -> ev_exn e = None ->
  let est := kmapi (fun _ => pl_value F) (s_vals (ev_after e)) in
  exists text lv le, d' (append (pl_folder F) "/result.g2o") = Some text /\ read_lines text = lv ++ le /\
    Forall2 vertex_line lv (by_kind est) /\ Permutation (by_kind est) (estimated est) /\
    Forall2 (edge_line half_permuted) le (edges_of (map (option_map (pl_factor F)) (s_nfg (ev_after e)))).
Proof.
  intros HC HS HE HL HL2 HX est. pose proof (session_effect b h d) as H. rewrite HS in H. destruct H as (_ & -> & _).
  pose proof (events_genuine h (solver_init b)) as HG. rewrite HE in HG. apply Forall_app in HG. destruct HG as [_ HG]. inversion HG as [|? ? HG1 _]; subst.
  change (append (pl_folder F) "/result.g2o") with (in_folder result_name).
  rewrite HE, fold_left_app. cbn [fold_left]. rewrite unlogged_fold by auto. rewrite effect_result, HL, HC. cbn [andb].
  pose proof (genuine_throws e HG1 HL HC) as HT. rewrite HX in HT.
  destruct (g2o_solver O (pl_factor F) HR (s_nfg (ev_after e)) est) as [ls Hls]. rewrite HT in Hls. fold est. rewrite Hls.
  destruct (g2o_file _ _ _ Hls) as (A & lv & le & B & D & E & G). exists (file_text ls), lv, le. rewrite A. auto.
Qed.

Lemma lacks_without c w : without c w -> lacks c w = true.
Proof.
  induction w as [|a w IH]; auto. cbn [without]. intros [H1 H2]. unfold lacks in *. cbn [list_ascii_of_string forallb]. rewrite IH by auto.
  destruct (Ascii.eqb_spec a c); auto; contradiction.
Qed.

Theorem weights_file b h d s d' l1 e l2 : (forall q, one_line (pl_weight F q)) -> c_log C = true -> c_gnc C = true -> session C W F b h d = Val (s, d') ->
  events C W h (solver_init b) = l1 ++ e :: l2 -> logged e = true -> Forall (fun x => logged x = false) l2 -> ev_exn e = None ->
  exists text, d' (append (pl_folder F) "/gnc_weights.csv") = Some text /\ read_column text = map (pl_weight F) (s_w (ev_after e)).
Proof.
  intros HW HC HN HS HE HL HL2 HX. pose proof (session_effect b h d) as H. rewrite HS in H. destruct H as (_ & -> & _).
  pose proof (events_genuine h (solver_init b)) as HG. rewrite HE in HG. apply Forall_app in HG. destruct HG as [_ HG]. inversion HG as [|? ? HG1 _]; subst.
  exists (weights_text F (s_w (ev_after e))). split.
  - change (append (pl_folder F) "/gnc_weights.csv") with (in_folder weights_name).
    rewrite HE, fold_left_app. cbn [fold_left]. rewrite unlogged_fold by auto. rewrite effect_weights, HL, HC, HN.
    rewrite (genuine_throws e HG1 HL HC), HX. reflexivity.
  - unfold weights_text. destruct (s_w (ev_after e)) as [|w ws]; [reflexivity|].
    set (t := String.concat newline _). assert (Ht : t <> EmptyString) by (apply concat_not_empty; apply HW).
    assert (Hc : cut "010" t = map (pl_weight F) (w :: ws)).
    { apply cut_join; [discriminate|]. apply forallb_forall. intros x Hx. apply in_map_iff in Hx. destruct Hx as (q & <- & _). apply lacks_without. apply HW. }
    unfold read_column. destruct t; [congruence|exact Hc].
Qed.

(** As many weights as factors, if the call optimised. *)
Theorem optimised_weights h b e : In e (events C W h (solver_init b)) -> ev_exn e = None -> optimised C W e = true ->
  length (s_w (ev_after e)) = length (s_nfg (ev_after e)).
Proof.
  intros He HX HO. pose proof (events_genuine h (solver_init b)) as HG. rewrite Forall_forall in HG. specialize (HG _ He).
  unfold genuine in HG. rewrite HX in HG. destruct HG as [r HG]. unfold optimised in HO.
  destruct (ev_op e) as [fs vs opt|fs vs| | | | | | | |]; try discriminate HO; cbn [step] in HG; unfold no_ret, update, force_update in HG.
  - destruct opt; [|discriminate HO]. destruct (ingest C W fs vs (ev_before e)) as [s1 c|s1 x|u]; try discriminate HO. subst c. cbn [obind andb] in HG.
    destruct (optimize C W s1) as [s2 []|s2 x|u] eqn:E; cbn [obind] in HG; try discriminate HG.
    destruct (log_status C s2) as [s3 []|s3 x|u] eqn:E3; cbn [obind] in HG; try discriminate HG. injection HG as <- _.
    apply log_status_state in E3. subst s3. apply (@c30_lengths O C W _ _ E).
  - destruct (ingest C W fs vs (ev_before e)) as [s1 c|s1 x|u]; try discriminate HG. cbn [obind] in HG.
    destruct (optimize C W s1) as [s2 []|s2 x|u] eqn:E; cbn [obind] in HG; try discriminate HG.
    destruct (log_status C s2) as [s3 []|s3 x|u] eqn:E3; cbn [obind] in HG; try discriminate HG. injection HG as <- _.
    apply log_status_state in E3. subst s3. apply (@c30_lengths O C W _ _ E).
Qed.

(** *** The two status files agree *)

Theorem files_agree h : c_log C = true ->
  Forall (fun e => ev_exn e = None /\ (quiet (ev_op e) = true \/
    logging (ev_op e) = true /\ match ev_op e with OpUpdate fs _ _ | OpForce fs _ => fs <> [] | _ => False end)) (events C W h (solver_init true)) ->
  Forall2 (fun a b => nth 2 a 0%Z = nth 0 b 0%Z /\ (c_gnc C = false -> nth 3 a 0%Z = nth 1 b 0%Z))
    (status_rows C (events C W h (solver_init true))) (rejection_rows C W (events C W h (solver_init true))).
Proof.
  intros HC H. pose proof (events_pcm h (solver_init true) ltac:(discriminate)) as HP. pose proof (events_genuine h (solver_init true)) as HG.
  unfold status_rows, rejection_rows. revert H HP HG. induction (events C W h (solver_init true)) as [|e l IH]; intros H HP HG; [constructor|].
  inversion H as [|? ? [H1 H2] H3]; subst. inversion HP as [|? ? P1 P2]; subst. inversion HG as [|? ? G1 G2]; subst. specialize (IH H3 P2 G2).
  assert (HQ : rejected C W e = logged e).
  { unfold logged, rejected. rewrite H1. unfold genuine in G1. rewrite H1 in G1. destruct G1 as [r G1].
    destruct H2 as [H2|[H2 H4]].
    - destruct (ev_op e); try discriminate H2; auto.
    - rewrite H2. destruct (ev_op e) as [fs vs opt|fs vs| | | | | | | |]; try contradiction; destruct fs as [|f fs]; try congruence; cbn [step] in G1;
        unfold no_ret, update, force_update in G1; destruct (ingest C W (f :: fs) vs (ev_before e)); cbn [obind] in G1; auto; discriminate. }
  cbn [filter]. rewrite HQ. destruct (logged e); auto. cbn [map]. constructor; auto.
  unfold status_row, rejection_row, get_num_lc, get_num_inliers. cbn [nth]. destruct (s_pcm (ev_after e)) as [p|]; [|congruence].
  split; auto. intros ->. reflexivity.
Qed.
Theorem files_do_not_matter b h d : match session C W F b h d with
  | Val (s, _) => run_on C W (map fst h) (solver_init b) = Val s
  | Bad u => run_on C W (map fst h) (solver_init b) = Bad u
  end.
Proof. pose proof (session_effect b h d) as H. destruct (session C W F b h d) as [[s d']|u]; tauto. Qed.
(** *** Exceptions *)

Lemma run_files_app h1 h2 x : run_files C W F (h1 ++ h2) x = match run_files C W F h1 x with Val y => run_files C W F h2 y | Bad u => Bad u end.
Proof.
  revert x. induction h1 as [|[o t] h1 IH]; intro x; cbn [app run_files]; auto. destruct (step_files C W F o t x); auto.
Qed.

Theorem exception_files b h o t d s0 d0 s e : c_log C = true -> session C W F b h d = Val (s0, d0) -> step C W o s0 = Throw s e ->
  exists d', session C W F b (h ++ [(o, t)]) d = Val (s, d') /\
    d' (append (pl_folder F) "/gnc_weights.csv") = d0 (append (pl_folder F) "/gnc_weights.csv") /\
    (logging o = false \/ e <> InvalidArgument ->
       d' (append (pl_folder F) "/rpgo_status.csv") = d0 (append (pl_folder F) "/rpgo_status.csv") /\
       d' (append (pl_folder F) "/result.g2o") = d0 (append (pl_folder F) "/result.g2o")) /\
    (logging o = true -> e = InvalidArgument ->
       let est := kmapi (fun _ => pl_value F) (s_vals s) in
       exists ls es1 x es2 le, d' (append (pl_folder F) "/result.g2o") = Some (file_text ls) /\ ls = vertices est ++ le /\
         edges_of (map (option_map (pl_factor F)) (s_nfg s)) = es1 ++ x :: es2 /\ e_noise x = GNotGauss /\
         Forall2 (edge_line half_permuted) le es1).
Proof.
  intros HC HS HT. set (ev := Event o t s0 s (Some e)). exists (effect ev d0). split.
  { unfold session in *. rewrite run_files_app, HS. cbn [run_files]. rewrite step_effect, HT. reflexivity. }
  assert (HG : genuine ev) by exact HT.
  change (append (pl_folder F) "/gnc_weights.csv") with (in_folder weights_name). change (append (pl_folder F) "/rpgo_status.csv") with (in_folder status_name).
  change (append (pl_folder F) "/result.g2o") with (in_folder result_name). split; [|split].
  - rewrite effect_weights. destruct (logged ev) eqn:HL; [|reflexivity]. rewrite (genuine_throws ev HG HL HC). cbn. rewrite andb_false_r. reflexivity.
  - intro H. assert (HL : logged ev = false).
    { unfold logged. cbn [ev ev_op ev_exn]. destruct H as [-> |H]; auto. apply andb_false_iff. right. destruct e; auto; congruence. }
    rewrite effect_status, effect_result, HL. auto.
  - intros H1 H2 est. subst e. assert (HL : logged ev = true) by (unfold logged; cbn [ev ev_op ev_exn]; rewrite H1; reflexivity).
    rewrite effect_result, HL, HC. cbn [andb]. pose proof (genuine_throws ev HG HL HC) as HX. cbn [ev ev_exn ev_after] in HX. cbn [ev ev_after].
    destruct (g2o_solver O (pl_factor F) HR (s_nfg s) est) as [ls Hls]. rewrite HX in Hls. fold est. rewrite Hls.
    destruct (g2o_throw _ _ _ _ Hls) as (_ & es1 & x & es2 & le & A & B & D & E). exists ls, es1, x, es2, le. auto.
Qed.
End Files.
