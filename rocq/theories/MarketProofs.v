(** * Proofs about reading graphs from files *)
From Coq Require Import String Ascii Permutation.
From Verif Require Import Prelude Num Clique NumText TextProofs CliqueSpec CliqueRead CliqueExact CliqueHeu MatrixMarket MarketSpec.
Set Implicit Arguments.
Local Open Scope Z_scope.

(** ** Streams are lists of lines *)

Lemma lines_cons s : exists l ls, lines s = l :: ls.
Proof.
  induction s as [|c s (l & ls & E)]; cbn; eauto. destruct (Ascii.eqb c "010"); eauto. rewrite E. eauto.
Qed.

Lemma cut_line_spec s : let '(l, r) := cut_line s in
  match r with None => lines s = [l] | Some r => lines s = l :: lines r end.
Proof.
  induction s as [|c s IH]; cbn; auto. change newline with "010"%char.
  destruct (Ascii.eqb c "010"); auto. destruct (cut_line s) as [l [r|]]; rewrite IH; auto.
Qed.

Definition pieces (i : stream) : list string := if st_eof i then [] else lines (st_rest i).
Definition sound (i : stream) : Prop := st_fail i = true -> st_eof i = true.

Lemma getline_some i line l ls : sound i -> pieces i = l :: ls ->
  exists i', getline i line = (i', l) /\ sound i' /\ pieces i' = ls.
Proof.
  unfold sound, pieces, getline. destruct i as [r e f]. cbn. intros G E.
  destruct e; [discriminate|]. destruct f; [specialize (G eq_refl); discriminate|]. cbn.
  pose proof (cut_line_spec r) as H. destruct (cut_line r) as [l' [r'|]]; rewrite H in E; inversion E; subst;
    eexists; split; try reflexivity; cbn; split; auto; discriminate.
Qed.

Lemma getline_none i line : pieces i = [] ->
  exists i', getline i line = (i', line) /\ sound i' /\ pieces i' = [].
Proof.
  unfold sound, pieces, getline. destruct i as [r e f]. cbn. intros E. destruct e.
  - cbn. eexists. split; [reflexivity|]. cbn. auto.
  - destruct (lines_cons r) as (l & ls & H). congruence.
Qed.

Lemma read_entries_lines getd getv conn n : forall i line st, sound i ->
  read_entries getd getv conn n i line st = rfold (read_entry getd getv conn) (firstn n (pieces i)) st.
Proof.
  induction n as [|n IH]; intros i line st G; cbn [read_entries firstn rfold]; auto.
  destruct (pieces i) as [|l ls] eqn:E.
  - unfold pieces in E. destruct (st_eof i); [reflexivity|].
    destruct (lines_cons (st_rest i)) as (a & b & H). congruence.
  - assert (Ee : st_eof i = false) by (unfold pieces in E; destruct (st_eof i); [discriminate|auto]).
    rewrite Ee. destruct (@getline_some _ line _ _ G E) as (i' & Eg & G' & P'). rewrite Eg. cbn [rfold].
    destruct (read_entry getd getv conn l st) as [st'|u]; cbn [rbind]; auto. rewrite IH by auto. rewrite P'. reflexivity.
Qed.

Definition is_comment (l : string) : bool := match l with String c _ => Ascii.eqb c "%" | _ => false end.

Lemma is_comment_iff l : is_comment l = true <-> comment l.
Proof.
  unfold comment. destruct l as [|c s]; cbn; split; try discriminate; try (intros (x & H); inversion H; subst; auto; fail).
  intro H. apply Ascii.eqb_eq in H. subst. eauto.
Qed.

Fixpoint first_plain (ls : list string) : option (string * list string) :=
  match ls with
  | [] => None
  | l :: ls' => if is_comment l then first_plain ls' else Some (l, ls')
  end.

Lemma skip_step f i line : skip_comments (S f) i line =
  if is_comment line then let '(i', l) := getline i line in skip_comments f i' l else Val (i, line).
Proof. cbn. destruct line; auto. Qed.

Lemma skip_ok h body : forall fuel i line, sound i -> first_plain (line :: pieces i) = Some (h, body) ->
  (List.length (pieces i) < fuel)%nat ->
  exists i', skip_comments fuel i line = Val (i', h) /\ sound i' /\ pieces i' = body.
Proof.
  induction fuel as [|f IH]; intros i line G E L; [lia|].
  rewrite skip_step. cbn [first_plain] in E. destruct (is_comment line) eqn:C.
  - destruct (pieces i) as [|l ls] eqn:P; [discriminate|].
    destruct (@getline_some _ line _ _ G P) as (i' & Eg & G' & P'). rewrite Eg.
    apply IH; auto; rewrite P'; auto. cbn [List.length] in L. lia.
  - inversion E; subst. eauto.
Qed.

Lemma skip_any h body : forall fuel i line, sound i -> first_plain (line :: pieces i) = Some (h, body) ->
  skip_comments fuel i line = Bad OutOfFuel \/
  exists i', skip_comments fuel i line = Val (i', h) /\ sound i' /\ pieces i' = body.
Proof.
  induction fuel as [|f IH]; intros i line G E; [left; reflexivity|].
  rewrite skip_step. cbn [first_plain] in E. destruct (is_comment line) eqn:C.
  - destruct (pieces i) as [|l ls] eqn:P; [discriminate|].
    destruct (@getline_some _ line _ _ G P) as (i' & Eg & G' & P'). rewrite Eg.
    apply IH; auto; rewrite P'; auto.
  - inversion E; subst. right. eauto.
Qed.

Lemma skip_endless : forall fuel i line, sound i -> first_plain (line :: pieces i) = None ->
  skip_comments fuel i line = Bad OutOfFuel.
Proof.
  induction fuel as [|f IH]; intros i line G E; auto.
  rewrite skip_step. cbn [first_plain] in E. destruct (is_comment line) eqn:C; [|discriminate].
  destruct (pieces i) as [|l ls] eqn:P.
  - destruct (@getline_none _ line P) as (i' & Eg & G' & P'). rewrite Eg. apply IH; auto.
    cbn [first_plain]. rewrite C, P'. reflexivity.
  - destruct (@getline_some _ line _ _ G P) as (i' & Eg & G' & P'). rewrite Eg. apply IH; auto. rewrite P'. exact E.
Qed.

Lemma first_plain_None ls : first_plain ls = None <-> Forall comment ls.
Proof.
  induction ls as [|l ls IH]; cbn; [split; auto|]. destruct (is_comment l) eqn:C.
  - rewrite IH. split; [constructor; auto; apply is_comment_iff; auto|inversion 1; auto].
  - split; [discriminate|]. inversion 1; subst. apply is_comment_iff in H2. congruence.
Qed.

Lemma first_plain_app cs h body : Forall comment cs -> ~ comment h -> first_plain (cs ++ h :: body) = Some (h, body).
Proof.
  induction 1; cbn; intro Hh.
  - destruct (is_comment h) eqn:C; auto. apply is_comment_iff in C. tauto.
  - apply is_comment_iff in H. rewrite H. auto.
Qed.

(** *** The reader on lines *)
Definition after_banner (ls : list string) : list string := match ls with [b] => [b] | _ :: r => r | [] => [] end.

Definition header (l : string) : Z * Z * Z :=
  let '(s1, row) := extract_int (Istr l true) 0 in
  let '(s2, col) := extract_int s1 0 in
  let '(_, num) := extract_int s2 0 in (row, col, num).

Definition mstart : mstate := MState 0 0 None (fun _ => []) (fun _ => []).

Definition body_of getd (getv : bool) conn (h : string) (body : list string) (o : gio) : res (gio * bool) :=
  let '(row, col, num) := header h in
  if negb (row =? col) then Val (o, false)
  else let* st := rfold (read_entry getd getv conn) (firstn (Z.to_nat num) body) mstart in
       let* o' := store getv row st o in Val (o', true).

Definition takes_values (b : string) : option bool :=
  match scan_words 5 (cstr b) with
  | [_; _; _; t; _] => Some (negb (String.eqb (lower_all t) "pattern"))
  | _ => None
  end.

Lemma read_market_lines getd fuel text conn o b rest : lines text = b :: rest ->
  read_market getd fuel (Some text) conn o =
  (if (line_length <=? String.length (cstr b))%nat then Bad OutOfBounds
  else match takes_values b with
       | None => Val (o, false)
       | Some getv =>
           match skip_comments fuel (snd (let '(i, _) := getline (Stream text false false) EmptyString in
                                          let '(i', l) := getline i b in (l, i')))
                               (hd EmptyString (after_banner (b :: rest))) with
           | Bad u => Bad u
           | Val (i, h) => body_of getd getv conn h (pieces i) o
           end
       end) /\
  (exists i, snd (let '(i, _) := getline (Stream text false false) EmptyString in
                  let '(i', l) := getline i b in (l, i')) = i /\ sound i /\ pieces i = tl (after_banner (b :: rest))).
Proof.
  intro E. assert (P0 : pieces (Stream text false false) = b :: rest) by exact E.
  assert (G0 : sound (Stream text false false)) by (intro H; discriminate H).
  destruct (@getline_some _ EmptyString _ _ G0 P0) as (i1 & E1 & G1 & P1).
  unfold read_market, takes_values. rewrite E1.
  assert (K : exists i2, getline i1 b = (i2, hd EmptyString (after_banner (b :: rest))) /\ sound i2 /\ pieces i2 = tl (after_banner (b :: rest))).
  { destruct rest as [|l ls].
    - destruct (@getline_none _ b P1) as (i2 & E2 & G2 & P2). exists i2. auto.
    - destruct (@getline_some _ b _ _ G1 P1) as (i2 & E2 & G2 & P2). exists i2. auto. }
  destruct K as (i2 & E2 & G2 & P2). rewrite E2. cbn [snd]. split; [|eauto].
  destruct (line_length <=? _)%nat; auto.
  destruct (scan_words 5 (cstr b)) as [|w1 [|w2 [|w3 [|w4 [|w5 [|w6 ws]]]]]]; auto.
  destruct (skip_comments fuel i2 _) as [[i h]|u] eqn:ES; cbn [rbind]; auto.
  unfold body_of, header.
  destruct (extract_int (Istr h true) 0) as [s1 row]. destruct (extract_int s1 0) as [s2 col].
  destruct (extract_int s2 0) as [s3 num]. destruct (negb (row =? col)); auto.
  rewrite read_entries_lines; auto.
  assert (forall f i l, sound i -> forall i' l', skip_comments f i l = Val (i', l') -> sound i').
  { clear. induction f as [|f IH]; intros i l G i' l' E; [discriminate|]. rewrite skip_step in E.
    destruct (is_comment l); [|inversion E; subst; auto].
    destruct (pieces i) as [|p ps] eqn:P.
    - destruct (@getline_none _ l P) as (j & Ej & Gj & Pj). rewrite Ej in E. eauto.
    - destruct (@getline_some _ l _ _ G P) as (j & Ej & Gj & Pj). rewrite Ej in E. eauto. }
  eauto.
Qed.

(** Three cases of a file. *)
Lemma read_market_cases getd fuel text conn o b rest : lines text = b :: rest ->
  (read_market getd fuel (Some text) conn o = Bad OutOfBounds /\ (line_length <= String.length (cstr b))%nat) \/
  ((String.length (cstr b) < line_length)%nat /\ takes_values b = None /\ read_market getd fuel (Some text) conn o = Val (o, false)) \/
  (exists getv, (String.length (cstr b) < line_length)%nat /\ takes_values b = Some getv /\
     match first_plain (after_banner (b :: rest)) with
     | None => read_market getd fuel (Some text) conn o = Bad OutOfFuel
     | Some (h, body) =>
         (read_market getd fuel (Some text) conn o = Bad OutOfFuel /\ (fuel <= List.length rest)%nat) \/
         read_market getd fuel (Some text) conn o = body_of getd getv conn h body o
     end).
Proof.
  intro E. destruct (read_market_lines getd fuel text conn o E) as (R & i & Ei & G & P). rewrite R, Ei. clear R.
  destruct (Nat.leb_spec line_length (String.length (cstr b))) as [L|L]; [left; auto|]. right.
  destruct (takes_values b) as [getv|] eqn:T; [|left; auto]. right. exists getv. split; auto. split; auto.
  assert (EL : after_banner (b :: rest) = hd EmptyString (after_banner (b :: rest)) :: pieces i).
  { rewrite P. destruct rest; reflexivity. }
  rewrite EL. destruct (first_plain _) as [[h body]|] eqn:F.
  - destruct (le_lt_dec fuel (List.length rest)) as [Lf|Lf].
    + destruct (@skip_any _ _ fuel _ _ G F) as [Es|(i' & Es & G' & P')].
      * left. cbn [hd] in Es |- *. rewrite Es. auto.
      * right. cbn [hd] in Es |- *. rewrite Es, P'. reflexivity.
    + right. assert (Ll : (List.length (pieces i) < fuel)%nat).
      { rewrite P. destruct rest; cbn in *; lia. }
      destruct (@skip_ok _ _ fuel _ _ G F Ll) as (i' & Es & G' & P').
      cbn [hd] in Es |- *. rewrite Es, P'. reflexivity.
  - cbn [hd]. rewrite (@skip_endless fuel _ _ G F). reflexivity.
Qed.

Lemma no_header_iff text b rest : lines text = b :: rest ->
  no_header text <-> first_plain (after_banner (b :: rest)) = None.
Proof.
  intro E. unfold no_header. rewrite E. rewrite first_plain_None. destruct rest; cbn [after_banner]; [|tauto].
  split; [auto|inversion 1; auto].
Qed.

(** ** The neighbour lists *)

Definition link {A} (m : zlists A) (r c : Z) (x y : A) : zlists A := zpush (zpush m r x) c y.

Lemma link_at {A} (m : zlists A) r c x y k : r <> c ->
  link m r c x y k = m k ++ (if k =? r then [x] else if k =? c then [y] else []).
Proof.
  intro N. unfold link, zpush. destruct (Z.eqb_spec k c), (Z.eqb_spec k r); subst; try congruence; auto.
  rewrite app_nil_r. auto.
Qed.

Lemma link_In {A} (m : zlists A) r c x y k z : r <> c ->
  In z (link m r c x y k) <-> In z (m k) \/ (k = r /\ z = x) \/ (k = c /\ z = y).
Proof.
  intro N. rewrite link_at by auto. rewrite in_app_iff.
  destruct (Z.eqb_spec k r) as [->|Hr]; [|destruct (Z.eqb_spec k c) as [->|Hc]]; cbn; intuition (subst; auto; congruence).
Qed.

Definition pairs (st : mstate) (v : Z) : list (Z * double) := combine (ms_nodes st v) (ms_values st v).

Record minv (getv : bool) (conn : double) (st : mstate) : Prop := {
  mi_sym : forall v w, In w (ms_nodes st v) -> In v (ms_nodes st w);
  mi_nd : forall v, NoDup (ms_nodes st v);
  mi_irr : forall v, ~ In v (ms_nodes st v);
  mi_len : forall v, List.length (ms_values st v) = if getv then List.length (ms_nodes st v) else 0%nat;
  mi_val : forall v w x, In (w, x) (pairs st v) -> dlt conn x = true /\ In (v, x) (pairs st w) }.

Lemma minv_start getv conn : minv getv conn mstart.
Proof.
  split; cbn; auto; try tauto; try (intros; constructor). intro v. destruct getv; auto.
Qed.

(** What one entry does. *)
Inductive added (getv : bool) (conn : double) (st st' : mstate) : Prop :=
| AddNone : ms_nodes st' = ms_nodes st -> ms_values st' = ms_values st ->
    (ms_row st = ms_col st \/ In (ms_col st) (ms_nodes st (ms_row st)) \/
     (getv = true /\ exists x, ms_value st = Some x /\ dlt conn x = false)) -> added getv conn st st'
| AddEdge : ms_row st <> ms_col st -> ~ In (ms_col st) (ms_nodes st (ms_row st)) ->
    ms_nodes st' = link (ms_nodes st) (ms_row st) (ms_col st) (ms_col st) (ms_row st) ->
    (getv = false /\ ms_values st' = ms_values st \/
     getv = true /\ exists x, ms_value st = Some x /\ dlt conn x = true /\
       ms_values st' = link (ms_values st) (ms_row st) (ms_col st) x x) -> added getv conn st st'.

Lemma add_entry_added getv conn st st' : add_entry getv conn st = Val st' -> added getv conn st st'.
Proof.
  destruct st as [r c v nodes values]. cbn. intro E.
  destruct (Z.eqb_spec r c) as [->|N]; [inversion E; subst; apply AddNone; cbn; auto|].
  destruct (existsb (Z.eqb c) (nodes r)) eqn:X.
  { inversion E; subst. apply AddNone; cbn; auto. right. left. apply existsb_exists in X.
    destruct X as (z & Hz & Ez). apply Z.eqb_eq in Ez. subst. auto. }
  assert (NI : ~ In c (nodes r)).
  { intro H. assert (existsb (Z.eqb c) (nodes r) = true); [|congruence].
    apply existsb_exists. exists c. split; auto. apply Z.eqb_refl. }
  destruct getv.
  - destruct v as [x|]; [|discriminate]. destruct (dlt conn x) eqn:D; inversion E; subst.
    + apply AddEdge; cbn; auto. right. split; auto. exists x. auto.
    + apply AddNone; cbn; auto. right. right. split; auto. exists x. auto.
  - inversion E; subst. apply AddEdge; cbn; auto.
Qed.

Lemma combine_snoc {A B} (l : list A) (m : list B) x y : List.length l = List.length m ->
  combine (l ++ [x]) (m ++ [y]) = combine l m ++ [(x, y)].
Proof.
  revert m. induction l as [|a l IH]; intros [|b m] E; cbn in *; try discriminate; auto. rewrite IH by lia. auto.
Qed.

Lemma combine_nil_r {A B} (l : list A) : combine l (@nil B) = [].
Proof. destruct l; auto. Qed.

Lemma pairs_link (nodes : zlists Z) (values : zlists double) r c x k :
  r <> c -> (forall v, List.length (values v) = List.length (nodes v)) ->
  combine (link nodes r c c r k) (link values r c x x k) =
  combine (nodes k) (values k) ++ (if k =? r then [(c, x)] else if k =? c then [(r, x)] else []).
Proof.
  intros N L. rewrite !link_at by auto.
  destruct (k =? r); [rewrite combine_snoc; auto|]. destruct (k =? c); [rewrite combine_snoc; auto|].
  rewrite !app_nil_r. reflexivity.
Qed.

Lemma added_minv getv conn st st' : minv getv conn st -> added getv conn st st' -> minv getv conn st'.
Proof.
  intros M A. destruct A as [E1 E2 _|N NI E1 E2].
  - destruct M as [M1 M2 M3 M4 M5]. split; unfold pairs in *; rewrite E1, ?E2 in *; auto.
  - set (r := ms_row st) in *. set (c := ms_col st) in *.
    assert (L : getv = true -> forall v, List.length (ms_values st v) = List.length (ms_nodes st v)).
    { intros -> v. apply (mi_len M). }
    split.
    + intros v w. rewrite E1, !link_In by auto. intros [H|[(-> & ->)|(-> & ->)]]; auto.
      left. apply (mi_sym M). auto.
    + intro v. rewrite E1, link_at by auto. destruct (Z.eqb_spec v r) as [->|Hr]; [|destruct (Z.eqb_spec v c) as [->|Hc]].
      * apply Permutation_NoDup with (l := c :: ms_nodes st r); [apply Permutation_cons_append|]. constructor; auto. apply (mi_nd M).
      * apply Permutation_NoDup with (l := r :: ms_nodes st c); [apply Permutation_cons_append|]. constructor; [|apply (mi_nd M)].
        intro H. apply NI. apply (mi_sym M). auto.
      * rewrite app_nil_r. apply (mi_nd M).
    + intro v. rewrite E1, link_In by auto. intros [H|[(-> & H)|(-> & H)]]; [apply (mi_irr M _ H)|congruence|congruence].
    + intro v. destruct E2 as [(-> & E2)|(-> & x & _ & _ & E2)]; rewrite E2; [apply (mi_len M)|].
      rewrite E1, !link_at, !app_length, L by auto. destruct (v =? r); auto. destruct (v =? c); auto.
    + intros v w x. unfold pairs. destruct E2 as [(-> & E2)|(-> & y & Ey & Dy & E2)].
      * rewrite E2. assert (Z0 : forall k, ms_values st k = []).
        { intro k. pose proof (mi_len M k) as H. destruct (ms_values st k); auto; discriminate. }
        rewrite !Z0, !combine_nil_r. intros [].
      * rewrite E1, E2, !pairs_link by auto. rewrite !in_app_iff. intros [H|H].
        -- apply (mi_val M) in H. destruct H as (H1 & H2). split; auto.
        -- destruct (Z.eqb_spec v r) as [->|Hr]; [|destruct (Z.eqb_spec v c) as [->|Hc]]; cbn in H; [| |tauto];
             destruct H as [H|[]]; inversion H; subst; (split; [auto|]); right.
           ++ destruct (Z.eqb_spec c r); [congruence|]. rewrite Z.eqb_refl. left; auto.
           ++ rewrite Z.eqb_refl. left; auto.
Qed.

(** One line either does nothing or is an entry. *)
Lemma read_entry_cases getd getv conn l st st' : read_entry getd getv conn l st = Val st' ->
  st' = st \/ exists st1, ms_nodes st1 = ms_nodes st /\ ms_values st1 = ms_values st /\ added getv conn st1 st'.
Proof.
  unfold read_entry. destruct l as [|ch l]; [intro E; inversion E; auto|].
  destruct (extract_int _ _) as [i1 r]. destruct (extract_int i1 _) as [i2 c].
  unfold decr. destruct (r =? int_min); [discriminate|]. destruct (c =? int_min); [discriminate|].
  cbn [rbind]. intro E. right. apply add_entry_added in E. eexists. split; [|split; [|exact E]]; reflexivity.
Qed.

Lemma minv_ext getv conn st st1 : ms_nodes st1 = ms_nodes st -> ms_values st1 = ms_values st -> minv getv conn st -> minv getv conn st1.
Proof. intros E1 E2 [M1 M2 M3 M4 M5]. split; unfold pairs in *; rewrite ?E1, ?E2 in *; auto. Qed.

Lemma read_lines_minv getd getv conn ls : forall st st', minv getv conn st ->
  rfold (read_entry getd getv conn) ls st = Val st' -> minv getv conn st'.
Proof.
  induction ls as [|l ls IH]; cbn [rfold]; intros st st' M E; [inversion E; subst; auto|].
  destruct (read_entry getd getv conn l st) as [st1|u] eqn:E1; [|discriminate]. cbn [rbind] in E.
  eapply IH; [|exact E]. destruct (read_entry_cases _ _ _ _ _ E1) as [->|(s & A1 & A2 & A)]; auto.
  eapply added_minv; [|exact A]. eapply minv_ext; eauto.
Qed.

(** ** The arrays *)

Definition rows (row : Z) : list Z := map Z.of_nat (seq 0 (Z.to_nat row)).
Definition zoffs {A} (f : Z -> list A) (k : nat) : nat := List.length (flat_map f (map Z.of_nat (seq 0 k))).

Lemma calc_max_val vs : exists mx, calc_max_degree vs = Val mx.
Proof.
  unfold calc_max_degree, rfor.
  assert (H : forall l a, (forall i, In i l -> (i + 1 < List.length vs)%nat) -> exists mx,
     rfold (fun i mx => let* d := get_degree vs i in Val (if mx <? d then d else mx)) l a = Val mx).
  { induction l as [|i l IH]; intros a Hl; cbn [rfold]; eauto.
    assert (Hi : (i + 1 < List.length vs)%nat) by (apply Hl; left; auto).
    assert (E : exists d, get_degree vs i = Val d).
    { unfold get_degree, vget. destruct (nth_error vs (i + 1)) eqn:E1; [|apply nth_error_None in E1; lia].
      destruct (nth_error vs i) eqn:E2; [|apply nth_error_None in E2; lia]. cbn. eauto. }
    destruct E as (d & E). rewrite E. cbn [rbind]. apply IH. intros; apply Hl; right; auto. }
  apply H. intros i Hi. apply in_seq in Hi. lia.
Qed.

Lemma store_fold (nodes : Z -> list Z) vs0 es0 n :
  fold_left (fun '(vs, es) i => let es' := es ++ nodes i in (vs ++ [List.length es'], es'))
    (map Z.of_nat (seq 0 n)) (vs0 ++ [List.length es0], es0) =
  (vs0 ++ map (fun k => (List.length es0 + zoffs nodes k)%nat) (seq 0 (n + 1)), es0 ++ flat_map nodes (map Z.of_nat (seq 0 n))).
Proof.
  induction n as [|n IH].
  - cbn. rewrite app_nil_r. rewrite Nat.add_0_r. reflexivity.
  - rewrite seq_S, map_app, fold_left_app, IH. cbn [map fold_left plus].
    rewrite flat_map_app. cbn [flat_map]. rewrite app_nil_r.
    assert (EN : List.length ((es0 ++ flat_map nodes (map Z.of_nat (seq 0 n))) ++ nodes (Z.of_nat n)) =
                 (List.length es0 + zoffs nodes (n + 1))%nat).
    { unfold zoffs. rewrite Nat.add_1_r, seq_S, map_app, flat_map_app. cbn [map flat_map plus].
      rewrite app_nil_r, !app_length. lia. }
    cbv zeta. rewrite EN. replace (S n + 1)%nat with (S (n + 1)) by lia. rewrite (seq_S (n + 1)), map_app. cbn [map plus].
    rewrite <- !app_assoc. reflexivity.
Qed.

(** Appending to what the object already holds. *)
Lemma store_spec getv row st o : exists mx,
  store getv row st o = Val (Gio
    (o_vs o ++ map (fun k => (List.length (o_es o) + zoffs (ms_nodes st) k)%nat) (seq 0 (Z.to_nat row + 1)))
    (o_es o ++ flat_map (ms_nodes st) (rows row))
    (if getv then o_vals o ++ flat_map (ms_values st) (rows row) else o_vals o) (Some mx)) /\
  calc_max_degree (o_vs o ++ map (fun k => (List.length (o_es o) + zoffs (ms_nodes st) k)%nat) (seq 0 (Z.to_nat row + 1))) = Val mx.
Proof.
  unfold store. rewrite store_fold.
  destruct (calc_max_val (o_vs o ++ map (fun k => (List.length (o_es o) + zoffs (ms_nodes st) k)%nat) (seq 0 (Z.to_nat row + 1)))) as (mx & E).
  exists mx. rewrite E. auto.
Qed.

Lemma zoffs_S {A} (f : Z -> list A) k : zoffs f (S k) = (zoffs f k + List.length (f (Z.of_nat k)))%nat.
Proof.
  unfold zoffs. rewrite seq_S, map_app, flat_map_app, app_length. cbn. rewrite app_nil_r. auto.
Qed.

Lemma zoffs_same {A B} (f : Z -> list A) (g : Z -> list B) k : (forall v, List.length (f v) = List.length (g v)) -> zoffs f k = zoffs g k.
Proof. intro H. induction k; auto. rewrite !zoffs_S, H, IHk. auto. Qed.

Lemma part_flat {A} (f : Z -> list A) n v : (v < n)%nat ->
  part (map (zoffs f) (seq 0 (n + 1))) (flat_map f (map Z.of_nat (seq 0 n))) v = f (Z.of_nat v).
Proof.
  intro H. unfold part.
  assert (N : forall k, (k < n + 1)%nat -> nth k (map (zoffs f) (seq 0 (n + 1))) 0%nat = zoffs f k).
  { intros k Hk. erewrite nth_error_nth; [|apply nth_map_seq; lia]. auto. }
  rewrite !N by lia. rewrite Nat.add_1_r, zoffs_S.
  replace n with (v + S (n - v - 1))%nat by lia. rewrite seq_app, map_app, flat_map_app.
  change (zoffs f v) with (List.length (flat_map f (map Z.of_nat (seq 0 v)))).
  rewrite skipn_app, skipn_all, Nat.sub_diag. cbn [skipn seq map flat_map plus app].
  replace (_ + _ - _)%nat with (List.length (f (Z.of_nat v))) by lia.
  rewrite firstn_app, firstn_all, Nat.sub_diag. cbn. apply app_nil_r.
Qed.

(** What a fresh object holds after a successful reading. *)
Record fresh_read (getv : bool) (row : Z) (st : mstate) (o : gio) : Prop := {
  f_vs : o_vs o = map (zoffs (ms_nodes st)) (seq 0 (Z.to_nat row + 1));
  f_es : o_es o = flat_map (ms_nodes st) (rows row);
  f_vals : o_vals o = if getv then flat_map (ms_values st) (rows row) else [];
  f_max : exists mx, o_maxdeg o = Some mx /\ calc_max_degree (o_vs o) = Val mx }.

Lemma store_fresh getv row st o : store getv row st gio_new = Val o -> fresh_read getv row st o.
Proof.
  intro E. destruct (store_spec getv row st gio_new) as (mx & E' & C). rewrite E in E'. cbn in *. inversion E'; subst.
  split; cbn; eauto.
Qed.

Lemma fresh_part getv row st o conn v : minv getv conn st -> fresh_read getv row st o -> (v < Z.to_nat row)%nat ->
  part (o_vs o) (o_es o) v = ms_nodes st (Z.of_nat v).
Proof. intros M F H. rewrite (f_vs F), (f_es F). apply part_flat. auto. Qed.

Lemma fresh_values getv row st o conn v : minv getv conn st -> fresh_read getv row st o -> (v < Z.to_nat row)%nat ->
  part (o_vs o) (o_vals o) v = if getv then ms_values st (Z.of_nat v) else [].
Proof.
  intros M F H. rewrite (f_vs F), (f_vals F). destruct getv.
  - rewrite <- (part_flat (ms_values st) H). f_equal. apply map_ext. intro k. apply zoffs_same. intro w. symmetry. apply (mi_len M).
  - unfold part. rewrite skipn_nil, firstn_nil. auto.
Qed.

(** The searchable graph. *)
Definition zadj (n : nat) (st : mstate) (v w : nat) : bool :=
  (v <? n)%nat && (w <? n)%nat && existsb (Z.eqb (Z.of_nat w)) (ms_nodes st (Z.of_nat v)).
Definition nnodes (n : nat) (st : mstate) (v : nat) : list nat :=
  if (v <? n)%nat then map Z.to_nat (ms_nodes st (Z.of_nat v)) else [].

Lemma zadj_iff n st v w : zadj n st v w = true <-> (v < n)%nat /\ (w < n)%nat /\ In (Z.of_nat w) (ms_nodes st (Z.of_nat v)).
Proof.
  unfold zadj. rewrite !andb_true_iff, !Nat.ltb_lt, existsb_exists. split.
  - intros ((A & B) & x & Hx & E). apply Z.eqb_eq in E. subst. auto.
  - intros (A & B & C). split; auto. exists (Z.of_nat w). split; auto. apply Z.eqb_refl.
Qed.

Lemma fresh_repr getv row st o conn : minv getv conn st -> fresh_read getv row st o ->
  (forall e, In e (o_es o) -> 0 <= e < Z.of_nat (Z.to_nat row)) ->
  exists g, to_graph o = Some g /\ repr g (Z.to_nat row) (zadj (Z.to_nat row) st) (nnodes (Z.to_nat row) st).
Proof.
  intros M F H. set (n := Z.to_nat row) in *. destruct (f_max F) as (mx & Em & Cm).
  assert (HR : forall v w, (v < n)%nat -> In w (ms_nodes st (Z.of_nat v)) -> 0 <= w < Z.of_nat n).
  { intros v w Hv Hw. apply H. rewrite (f_es F). apply in_flat_map. exists (Z.of_nat v). split; auto.
    unfold rows. apply in_map, in_seq. fold n. lia. }
  assert (HL : forall v, (v < n)%nat -> List.length (nnodes n st v) = List.length (ms_nodes st (Z.of_nat v))).
  { intros v Hv. unfold nnodes. destruct (Nat.ltb_spec v n); [|lia]. apply map_length. }
  destruct (@csr_repr n (zadj n st) (nnodes n st)) as (g & Eg & R).
  - intros v w. rewrite zadj_iff. unfold nnodes. destruct (Nat.ltb_spec v n) as [L|L]; [|cbn; split; [tauto|lia]].
    rewrite in_map_iff. split.
    + intros (z & Ez & Hz). pose proof (HR _ _ L Hz). subst w. rewrite Z2Nat.id by lia. repeat split; auto; lia.
    + intros (A & B & C & D). exists (Z.of_nat w). rewrite Nat2Z.id. auto.
  - intro v. unfold nnodes. destruct (Nat.ltb_spec v n) as [L|L]; [|constructor].
    assert (HN : forall l, (forall w, In w l -> 0 <= w) -> NoDup l -> NoDup (map Z.to_nat l)).
    { clear. induction l as [|a l IH]; intros P D; cbn; [constructor|]. inversion D; subst. constructor.
      - intro X. apply in_map_iff in X. destruct X as (b & Eb & Hb). apply H1. replace a with b; auto.
        apply Z2Nat.inj; auto; apply P; cbn; auto.
      - apply IH; auto. intros; apply P; right; auto. }
    apply HN; [intros w Hw; apply (HR _ _ L Hw)|apply (mi_nd M)].
  - intros x y. apply eq_true_iff_eq. rewrite !zadj_iff. split; intros (A & B & C); repeat split; auto; apply (mi_sym M); auto.
  - intro x. apply not_true_iff_false. rewrite zadj_iff. intros (_ & _ & C). apply (mi_irr M _ C).
  - exists g. split; auto. rewrite read_csr_spec in Eg. unfold to_graph. rewrite Em.
    assert (EV : map (offs (nnodes n st)) (seq 0 (n + 1)) = o_vs o).
    { rewrite (f_vs F). fold n. apply map_ext_in. intros k Hk. apply in_seq in Hk.
      assert (K : forall j, (j <= n)%nat -> offs (nnodes n st) j = zoffs (ms_nodes st) j).
      { induction j as [|j IH]; intro Hj; auto. rewrite offs_S, zoffs_S, HL, IH by lia. auto. }
      apply K. lia. }
    assert (EE : map (fun e => if e <? 0 then List.length (o_vs o) else Z.to_nat e) (o_es o) = flat_map (nnodes n st) (seq 0 n)).
    { rewrite (f_es F). unfold rows. fold n. rewrite flat_map_concat_map, map_map.
      rewrite flat_map_concat_map. rewrite concat_map, map_map. f_equal. apply map_ext_in. intros v Hv. apply in_seq in Hv.
      unfold nnodes. destruct (Nat.ltb_spec v n); [|lia]. apply map_ext_in. intros w Hw.
      apply HR in Hw; auto. destruct (Z.ltb_spec w 0); auto. lia. }
    rewrite EV in Eg. rewrite Cm in Eg. cbn [rbind] in Eg. inversion Eg. rewrite EE. reflexivity.
Qed.

(** ** Any text *)

Lemma read_true getd fuel text conn o o' : read_market getd fuel (Some text) conn o = Val (o', true) ->
  exists getv row st, minv getv conn st /\ store getv row st o = Val o'.
Proof.
  intro E. destruct (lines_cons text) as (b & rest & L).
  destruct (read_market_cases getd fuel text conn o L) as [(R & _)|[(_ & _ & R)|(getv & _ & _ & R)]];
    try (rewrite E in R; discriminate).
  destruct (first_plain _) as [[h body]|]; [|rewrite E in R; discriminate].
  destruct R as [(R & _)|R]; rewrite E in R; [discriminate|]. unfold body_of in R.
  destruct (header h) as [[row col] num]. destruct (negb (row =? col)); [discriminate|].
  destruct (rfold _ _ _) as [st|u] eqn:ES; [|discriminate]. cbn [rbind] in R.
  destruct (store getv row st o) as [o1|u] eqn:Es; [|discriminate]. cbn [rbind] in R. inversion R; subst.
  exists getv, row, st. split; auto. eapply read_lines_minv; [apply minv_start|exact ES].
Qed.

Theorem any_file_tidy getd fuel text conn o : read_market getd fuel (Some text) conn gio_new = Val (o, true) ->
  (1 <= List.length (o_vs o))%nat /\
  (o_vals o = [] \/ List.length (o_vals o) = List.length (o_es o)) /\
  forall v, (v < List.length (o_vs o) - 1)%nat ->
    NoDup (part (o_vs o) (o_es o) v) /\ ~ In (Z.of_nat v) (part (o_vs o) (o_es o) v) /\
    (forall w, (w < List.length (o_vs o) - 1)%nat -> In (Z.of_nat w) (part (o_vs o) (o_es o) v) -> In (Z.of_nat v) (part (o_vs o) (o_es o) w)) /\
    forall w x, In (w, x) (combine (part (o_vs o) (o_es o) v) (part (o_vs o) (o_vals o) v)) ->
      dlt conn x = true /\
      (0 <= w < Z.of_nat (List.length (o_vs o) - 1) ->
       In (Z.of_nat v, x) (combine (part (o_vs o) (o_es o) (Z.to_nat w)) (part (o_vs o) (o_vals o) (Z.to_nat w)))).
Proof.
  intro E. destruct (read_true _ _ _ _ _ E) as (getv & row & st & M & S0). apply store_fresh in S0. rename S0 into F.
  assert (EL : List.length (o_vs o) = (Z.to_nat row + 1)%nat).
  { rewrite (f_vs F), map_length, seq_length. auto. }
  rewrite EL. replace (Z.to_nat row + 1 - 1)%nat with (Z.to_nat row) by lia. split; [lia|]. split.
  { rewrite (f_vals F), (f_es F). destruct getv; auto. right. apply (zoffs_same (ms_values st) (ms_nodes st)). apply (mi_len M). }
  intros v Hv. rewrite (fresh_part M F Hv). split; [apply (mi_nd M)|]. split; [apply (mi_irr M)|]. split.
  - intros w Hw. rewrite (fresh_part M F Hw). apply (mi_sym M).
  - intros w x. rewrite (fresh_values M F Hv). destruct getv; [|rewrite combine_nil_r; intros []].
    intro H. apply (mi_val M) in H. destruct H as (H1 & H2). split; auto.
    intro Hw. assert (Hw' : (Z.to_nat w < Z.to_nat row)%nat) by lia.
    rewrite (fresh_part M F Hw'), (fresh_values M F Hw'). rewrite Z2Nat.id by lia. exact H2.
Qed.

Theorem any_file_searchable getd fuel text conn o : read_market getd fuel (Some text) conn gio_new = Val (o, true) ->
  (forall e, In e (o_es o) -> 0 <= e < Z.of_nat (List.length (o_vs o) - 1)) ->
  exists g l, to_graph o = Some g /\ max_clique g 0 [] = Val (List.length l, l) /\
    max_clique_in (List.length (o_vs o) - 1) (fun v w => In (Z.of_nat w) (part (o_vs o) (o_es o) v)) l /\
    exists k data, max_clique_heu g [] = Val (k, data) /\
      ((List.length (o_vs o) - 1 = 0)%nat /\ k = -1 \/
       exists picks, picks <> [] /\ k = Z.of_nat (List.length picks) /\
         clique_in (List.length (o_vs o) - 1) (fun v w => In (Z.of_nat w) (part (o_vs o) (o_es o) v)) picks).
Proof.
  intros E H. destruct (read_true _ _ _ _ _ E) as (getv & row & st & M & S0). apply store_fresh in S0. rename S0 into F.
  assert (EL : (List.length (o_vs o) - 1)%nat = Z.to_nat row).
  { rewrite (f_vs F), map_length, seq_length. lia. }
  rewrite EL in *. destruct (fresh_repr M F H) as (g & Eg & R). destruct (max_clique_ok R) as (l & El & C & Q).
  exists g, l. split; auto. split; auto.
  assert (K : forall l', clique_in (Z.to_nat row) (fun v w => In (Z.of_nat w) (part (o_vs o) (o_es o) v)) l' <->
     clq (Z.to_nat row) (zadj (Z.to_nat row) st) l').
  { intro l'. unfold clique_in, clq. split; intros (A & B & D); repeat split; auto; intros x y Hx Hy Nxy;
      specialize (D x y Hx Hy Nxy); cbv beta in *; pose proof (B x Hx) as Bx.
    - rewrite (fresh_part M F Bx) in D. apply zadj_iff. auto.
    - apply zadj_iff in D. rewrite (fresh_part M F Bx). tauto. }
  split; [split; [apply K; auto|]; intros l' H'; apply Q, K; auto|].
  destruct (max_clique_heu_ok R) as (mc & data & Eh & H1 & H2 & _). exists mc, data. split; auto.
  destruct H1 as [[-> ->]|(picks & c & Hlt & -> & HC & Hc & _)].
  - left. split; auto. destruct (Z.to_nat row) as [|r]; auto.
    assert (1 <= -1); [|lia]. apply H2 with 0%nat; [|lia]. apply in_seq. lia.
  - right. exists picks. split; [intros ->; destruct Hc|]. split; auto. apply K. auto.
Qed.

(** ** Well-formed files *)

Lemma lines_append l s : one_line l -> lines (append l (append MarketSpec.nl s)) = l :: lines s.
Proof.
  induction l as [|c l IH]; cbn [chars one_line]; intro H; [reflexivity|].
  destruct H as (Hc & H). cbn [append lines].
  destruct (Ascii.eqb_spec c "010"); [congruence|]. rewrite IH by auto. reflexivity.
Qed.

Lemma lines_unlines ls : Forall one_line ls -> lines (unlines ls) = ls ++ [EmptyString].
Proof. induction 1; cbn [unlines app]; [reflexivity|]. rewrite lines_append by auto. rewrite IHForall. reflexivity. Qed.

Lemma chars_app P a b : chars P (append a b) <-> chars P a /\ chars P b.
Proof. induction a; cbn; tauto. Qed.

Lemma chars_impl (P Q : ascii -> Prop) s : (forall c, P c -> Q c) -> chars P s -> chars Q s.
Proof. intro H. induction s; cbn; intuition. Qed.

Lemma append_length a b : String.length (append a b) = (String.length a + String.length b)%nat.
Proof. induction a; cbn; auto. Qed.

Lemma visible_not_space c : visible c -> is_space c = false.
Proof.
  unfold visible, is_space. intro H. destruct (Nat.eqb_spec (nat_of_ascii c) 32); [lia|].
  destruct (Nat.leb_spec (nat_of_ascii c) 13); [lia|]. rewrite andb_false_r. reflexivity.
Qed.

(** Not the zero byte, nor a newline. *)
Definition texty (c : ascii) : Prop := c <> "000"%char /\ c <> "010"%char.

Lemma visible_texty c : visible c -> texty c.
Proof. unfold visible, texty. intro H. split; intros ->; cbn in H; lia. Qed.

Lemma cstr_id s : chars texty s -> cstr s = s.
Proof.
  induction s as [|c s IH]; cbn; auto. intros ((A & _) & B). unfold nul. destruct (Ascii.eqb_spec c "000"); [congruence|]. rewrite IH; auto.
Qed.

Lemma cut_word_text w rest : chars visible w -> (match rest with EmptyString => True | String c _ => is_space c = true end) ->
  cut_word (append w rest) = (w, rest).
Proof.
  induction w as [|c w IH]; cbn [append chars]; intros V R.
  - destruct rest as [|c rest]; auto. cbn. rewrite R. auto.
  - destruct V as (Vc & V). cbn [cut_word]. rewrite (visible_not_space Vc), IH; auto.
Qed.

Lemma skip_space_word w rest : word w -> skip_space (append w rest) = append w rest.
Proof.
  intros (N & V). destruct w as [|c w]; [congruence|]. cbn. destruct V as (Vc & _). rewrite (visible_not_space Vc). auto.
Qed.

Lemma scan_word k w rest : word w -> (match rest with EmptyString => True | String c _ => is_space c = true end) ->
  scan_words (S k) (append w rest) = w :: scan_words k rest.
Proof.
  intros W R. cbn [scan_words]. rewrite (skip_space_word rest W).
  destruct W as (N & V). destruct (append w rest) as [|c s] eqn:E; [destruct w; [congruence|discriminate]|].
  rewrite <- E. rewrite cut_word_text; auto.
Qed.

Lemma scan_space k rest : scan_words k (String " " rest) = scan_words k rest.
Proof. destruct k; auto. Qed.

Lemma lower_spells s w : chars (fun d => 97 <= nat_of_ascii d <= 122)%nat w -> lower_all s = w <-> spells s w.
Proof.
  revert w. induction s as [|c s IH]; intros [|d w]; cbn; try (split; [discriminate|tauto]); [tauto|].
  intros (Hd & Hw). specialize (IH w Hw).
  assert (K : lower c = d <-> (c = d \/ (nat_of_ascii c + 32)%nat = nat_of_ascii d)).
  { unfold lower. destruct (Nat.leb_spec 65 (nat_of_ascii c)) as [A|A]; [destruct (Nat.leb_spec (nat_of_ascii c) 90) as [B|B]|]; cbn [andb].
    - split.
      + intro E. right. subst d. rewrite nat_ascii_embedding; auto. lia.
      + intros [->|E]; [lia|]. rewrite E. apply ascii_nat_embedding.
    - split; [auto|]. intros [|E]; auto. lia.
    - split; [auto|]. intros [|E]; auto. lia. }
  rewrite <- IH, <- K. split; [intro E; inversion E; auto|intros (-> & ->); auto].
Qed.

Lemma takes_values_banner kind scheme pattern : word kind -> word scheme -> (pattern = true <-> spells kind "pattern") ->
  takes_values (append "%%MatrixMarket matrix coordinate " (append kind (append " " scheme))) = Some (negb pattern).
Proof.
  intros WK WS WP. unfold takes_values. rewrite cstr_id.
  2:{ rewrite !chars_app. assert (V : forall w, word w -> chars texty w) by (intros w (_ & V); eapply chars_impl; [apply visible_texty|auto]).
      split; [cbn; unfold texty; repeat (split; [split; discriminate|]); exact I|].
      split; [auto|]. split; [cbn; unfold texty; repeat split; discriminate|auto]. }
  change (append "%%MatrixMarket matrix coordinate " (append kind (append " " scheme))) with
    (append "%%MatrixMarket" (String " " (append "matrix" (String " " (append "coordinate" (String " " (append kind (String " " scheme)))))))).
  assert (W3 : word "%%MatrixMarket" /\ word "matrix" /\ word "coordinate").
  { unfold word, visible. repeat split; cbn; try discriminate; lia. }
  destruct W3 as (W1 & W2 & W3).
  rewrite (@scan_word 4 "%%MatrixMarket") by (auto; reflexivity). rewrite scan_space.
  rewrite (@scan_word 3 "matrix") by (auto; reflexivity). rewrite scan_space.
  rewrite (@scan_word 2 "coordinate") by (auto; reflexivity). rewrite scan_space.
  rewrite (@scan_word 1 kind) by (auto; reflexivity). rewrite scan_space.
  rewrite <- (append_nil scheme). rewrite (@scan_word 0 scheme) by (auto; exact I). cbn [scan_words].
  f_equal. f_equal. assert (L : lower_all kind = "pattern"%string <-> spells kind "pattern").
  { apply lower_spells. cbn. repeat split; lia. }
  destruct (String.eqb_spec (lower_all kind) "pattern") as [E|E]; destruct pattern; auto.
  - symmetry. apply WP, L. auto.
  - exfalso. apply E, L, WP. auto.
Qed.

(** *** Numbers *)

Lemma scan_digits_text l : Forall is_digit l -> forall acc n rest, no_digit_head rest ->
  scan_digits (append (text_of l) rest) acc n = (value_from acc l, (n + List.length l)%nat, rest).
Proof.
  induction 1 as [|d l Hd _ IH]; intros acc n rest Hr.
  - cbn. destruct rest as [|c rest]; cbn; [f_equal; f_equal; lia|].
    cbn in Hr. change (digit_value c) with (TextSpec.digit_of c). rewrite Hr. f_equal. f_equal. lia.
  - unfold text_of. cbn [map string_of_list_ascii append scan_digits].
    change (digit_value (digit d)) with (TextSpec.digit_of (digit d)). rewrite digit_of_digit by auto.
    change (string_of_list_ascii (map digit l)) with (text_of l). rewrite IH by auto. cbn [value_from fold_left List.length].
    f_equal. f_equal. lia.
Qed.

Lemma num_digits n : exists d l, Forall is_digit (d :: l) /\ num n = text_of (d :: l) /\ value_from 0 (d :: l) = Z.of_nat n.
Proof.
  unfold num, nat_text. set (z := Z.of_N (N.of_nat n)). assert (Hz : 0 <= z) by (unfold z; lia).
  set (k := Z.to_nat (ndigits z)).
  assert (HK : (0 < k)%nat /\ z < 10 ^ Z.of_nat k).
  { unfold k. destruct (Z.eq_dec z 0) as [->|Hn]; [cbn; lia|]. destruct (ndigits_spec z) as (A & B); [lia|]. rewrite Z2Nat.id by lia. lia. }
  pose proof (digits_length k z) as HL. pose proof (digits_digit k z) as HD. pose proof (digits_value k z) as HV.
  rewrite Z.mod_small in HV by lia. destruct (digits k z) as [|d l]; [cbn in HL; lia|].
  exists d, l. split; auto. split; auto. rewrite HV. unfold z. lia.
Qed.

Lemma digit_props d : is_digit d -> visible (digit d) /\ Ascii.eqb (digit d) "-" = false /\ Ascii.eqb (digit d) "+" = false.
Proof.
  unfold is_digit. intro H.
  assert (C : d = 0 \/ d = 1 \/ d = 2 \/ d = 3 \/ d = 4 \/ d = 5 \/ d = 6 \/ d = 7 \/ d = 8 \/ d = 9) by lia.
  unfold visible. repeat destruct C as [->|C]; try subst d; repeat split; try reflexivity; apply Nat.leb_le; reflexivity.
Qed.

Lemma num_word n : word (num n).
Proof.
  destruct (num_digits n) as (d & l & HD & E & _). rewrite E. split; [discriminate|].
  assert (K : forall l, Forall is_digit l -> chars visible (text_of l)).
  { induction 1; cbn; auto. split; auto. apply digit_props. auto. }
  auto.
Qed.

Definition not_empty (s : string) : bool := match s with EmptyString => false | _ => true end.

Lemma extract_num n rest x : no_digit_head rest -> (Z.of_nat n <= int_max) ->
  extract_int (Istr (append (num n) rest) true) x = (Istr rest (not_empty rest), Z.of_nat n) /\
  extract_int (Istr (String " " (append (num n) rest)) true) x = (Istr rest (not_empty rest), Z.of_nat n).
Proof.
  intros R L. destruct (num_digits n) as (d & l & HD & E & V).
  assert (G : extract_int (Istr (append (num n) rest) true) x = (Istr rest (not_empty rest), Z.of_nat n)).
  { unfold extract_int. cbn [is_good negb is_rest]. rewrite (skip_space_word rest (num_word n)). rewrite E.
    destruct (append (text_of (d :: l)) rest) as [|c s] eqn:ES; [discriminate|].
    assert (c = digit d) by (cbn in ES; congruence). subst c.
    destruct (@digit_props d) as (_ & -> & ->); [inversion HD; auto|]. rewrite <- ES.
    rewrite scan_digits_text by auto. rewrite V. cbn [List.length plus Nat.eqb].
    destruct (Z.ltb_spec (Z.of_nat n) int_min); [unfold int_min in *; lia|].
    destruct (Z.ltb_spec int_max (Z.of_nat n)); [lia|]. reflexivity. }
  split; auto.
Qed.

Lemma no_digit_space s : no_digit_head (String " " s).
Proof. reflexivity. Qed.

Lemma header_num n k : Z.of_nat n < 2 ^ 31 -> Z.of_nat k < 2 ^ 31 ->
  header (append (num n) (append " " (append (num n) (append " " (num k))))) = (Z.of_nat n, Z.of_nat n, Z.of_nat k).
Proof.
  intros Hn Hk. change (2 ^ 31) with 2147483648 in *. unfold header.
  change (append " " (append (num n) (append " " (num k)))) with (String " " (append (num n) (String " " (num k)))).
  destruct (@extract_num n (String " " (append (num n) (String " " (num k)))) 0) as (E1 & _); [apply no_digit_space|unfold int_max; lia|].
  rewrite E1. cbn [not_empty].
  destruct (@extract_num n (String " " (num k)) 0) as (_ & E2); [apply no_digit_space|unfold int_max; lia|].
  rewrite E2. cbn [not_empty].
  destruct (@extract_num k EmptyString 0) as (_ & E3); [exact I|unfold int_max; lia|].
  rewrite append_nil in E3. rewrite E3. reflexivity.
Qed.

(** *** Entries *)

Definition entry_state (getd : string -> double) (pattern : bool) (e : entry) (st : mstate) : mstate :=
  MState (Z.of_nat (e_row e) - 1) (Z.of_nat (e_col e) - 1)
    (if pattern then ms_value st else Some (getd (e_text e))) (ms_nodes st) (ms_values st).

Lemma read_entry_line getd pattern conn e n st : Z.of_nat n < 2 ^ 31 ->
  (1 <= e_row e <= n)%nat -> (1 <= e_col e <= n)%nat -> (pattern = false -> word (e_text e)) ->
  read_entry getd (negb pattern) conn (entry_line pattern e) st = add_entry (negb pattern) conn (entry_state getd pattern e st).
Proof.
  intros Hn Hr Hc Hw. change (2 ^ 31) with 2147483648 in Hn. unfold entry_line.
  set (tail := if pattern then EmptyString else append " " (e_text e)).
  assert (HT : no_digit_head tail) by (unfold tail; destruct pattern; [exact I|apply no_digit_space]).
  change (append " " (append (num (e_col e)) tail)) with (String " " (append (num (e_col e)) tail)).
  destruct (@extract_num (e_row e) (String " " (append (num (e_col e)) tail)) (ms_row st)) as (E1 & _); [apply no_digit_space|unfold int_max; lia|].
  destruct (@extract_num (e_col e) tail (ms_col st)) as (_ & E2); [auto|unfold int_max; lia|].
  unfold read_entry.
  destruct (append (num (e_row e)) _) as [|c0 s0] eqn:ES.
  { destruct (num_word (e_row e)) as (N & _). destruct (num (e_row e)); [congruence|discriminate]. }
  rewrite E1. cbn [not_empty]. rewrite E2. unfold decr.
  replace (Z.of_nat (e_row e) =? int_min) with false by (symmetry; apply Z.eqb_neq; unfold int_min; lia).
  replace (Z.of_nat (e_col e) =? int_min) with false by (symmetry; apply Z.eqb_neq; unfold int_min; lia).
  cbn [rbind]. unfold entry_state. f_equal. f_equal.
  unfold tail. destruct pattern; cbn [not_empty extract_double is_good negb is_rest append]; auto.
  unfold extract_double. cbn [not_empty is_good negb is_rest].
  change (skip_space (String " " (e_text e))) with (skip_space (e_text e)).
  rewrite <- (append_nil (e_text e)). rewrite skip_space_word by auto. rewrite append_nil.
  destruct (Hw eq_refl) as (N & _). destruct (e_text e); [congruence|reflexivity].
Qed.

Section Entries.
Variable getd : string -> double.
Variable conn : double.
Variable pattern : bool.
Notation getv := (negb pattern).
Notation joins := (MarketSpec.joins getd conn pattern).
Notation linked := (MarketSpec.linked getd conn pattern).
Notation link_value := (MarketSpec.link_value getd conn pattern).

Record ginv (done : list entry) (st : mstate) : Prop := {
  gi_in : forall v w, In w (ms_nodes st v) <-> exists a b, v = Z.of_nat a /\ w = Z.of_nat b /\ linked done a b;
  gi_val : forall a b x, In (Z.of_nat b, x) (pairs st (Z.of_nat a)) -> link_value done a b = Some x }.

Lemma joins_sym a b e : joins a b e = joins b a e.
Proof.
  unfold MarketSpec.joins. rewrite (Nat.eqb_sym a b). rewrite orb_comm. reflexivity.
Qed.

Lemma linked_sym es a b : linked es a b -> linked es b a.
Proof. intros (e & H & J). exists e. rewrite joins_sym. auto. Qed.

Lemma linked_snoc es e a b : linked (es ++ [e]) a b <-> linked es a b \/ joins a b e = true.
Proof.
  unfold MarketSpec.linked. split.
  - intros (x & H & J). apply in_app_iff in H. destruct H as [H|[->|[]]]; eauto.
  - intros [(x & H & J)|J]; [exists x|exists e]; split; auto; apply in_app_iff; cbn; auto.
Qed.

Lemma find_snoc {A} (f : A -> bool) l x : find f (l ++ [x]) = match find f l with Some y => Some y | None => if f x then Some x else None end.
Proof. induction l as [|a l IH]; cbn; auto. destruct (f a); auto. Qed.

Lemma link_value_old es e a b x : link_value es a b = Some x -> link_value (es ++ [e]) a b = Some x.
Proof. unfold MarketSpec.link_value. rewrite find_snoc. destruct (find _ es); auto. discriminate. Qed.

Lemma link_value_new es e a b : ~ linked es a b -> joins a b e = true -> link_value (es ++ [e]) a b = Some (getd (e_text e)).
Proof.
  unfold MarketSpec.link_value. intros N J. rewrite find_snoc. destruct (find _ es) eqn:F.
  - elim N. apply find_some in F. exists e0. auto.
  - rewrite J. auto.
Qed.

Lemma ginv_step done e n st st' : (1 <= e_row e <= n)%nat -> (1 <= e_col e <= n)%nat ->
  minv getv conn st -> ginv done st -> add_entry getv conn (entry_state getd pattern e st) = Val st' ->
  ginv (done ++ [e]) st'.
Proof.
  intros Hr Hc M G E. apply add_entry_added in E.
  set (a0 := (e_row e - 1)%nat). set (b0 := (e_col e - 1)%nat).
  assert (ER : Z.of_nat (e_row e) - 1 = Z.of_nat a0) by (unfold a0; lia).
  assert (EC : Z.of_nat (e_col e) - 1 = Z.of_nat b0) by (unfold b0; lia).
  assert (HJ : forall a b, joins a b e = true <-> counts getd conn pattern e = true /\ a0 <> b0 /\ ((a = a0 /\ b = b0) \/ (a = b0 /\ b = a0))).
  { intros a b. unfold MarketSpec.joins. rewrite !andb_true_iff, orb_true_iff, !andb_true_iff, negb_true_iff, !Nat.eqb_eq, Nat.eqb_neq.
    unfold a0, b0. intuition lia. }
  assert (HC : getv = true -> counts getd conn pattern e = dlt conn (getd (e_text e))).
  { intro P. unfold counts. apply negb_true_iff in P. rewrite P. reflexivity. }
  destruct E as [E1 E2 Why|N NI E1 E2]; unfold entry_state in *; cbn [ms_nodes ms_values ms_row ms_col ms_value] in *.
  - rewrite ER, EC in Why.
    assert (K : forall a b, joins a b e = true -> linked done a b).
    { intros a b J. apply HJ in J. destruct J as (J1 & J2 & J3).
      destruct Why as [W|[W|(P & x & W & D)]].
      - apply Nat2Z.inj in W. tauto.
      - apply (gi_in G) in W. destruct W as (a1 & b1 & A & B & W). apply Nat2Z.inj in A, B. subst a1 b1.
        destruct J3 as [(-> & ->)|(-> & ->)]; auto. apply linked_sym; auto.
      - apply negb_true_iff in P. rewrite P in W. inversion W; subst x. rewrite HC in J1 by (rewrite P; auto). congruence. }
    split.
    + intros v w. rewrite E1, (gi_in G). split; intros (a & b & A & B & H); exists a, b; repeat split; auto.
      * apply linked_snoc. auto.
      * apply linked_snoc in H. destruct H; auto.
    + intros a b x H. apply link_value_old. apply (gi_val G). unfold pairs in *. rewrite E1, E2 in H. auto.
  - rewrite ER, EC in *. assert (N' : a0 <> b0) by congruence.
    assert (CT : counts getd conn pattern e = true).
    { destruct E2 as [(P & _)|(P & x & W & D & _)].
      - unfold counts. apply negb_false_iff in P. rewrite P. auto.
      - rewrite HC by auto. apply negb_true_iff in P. rewrite P in W. inversion W; subst. auto. }
    assert (NL : ~ linked done a0 b0).
    { intro H. apply NI, (gi_in G). eauto. }
    split.
    + intros v w. rewrite E1, link_In by congruence. rewrite (gi_in G). split.
      * intros [(a & b & A & B & H)|[(-> & ->)|(-> & ->)]].
        -- exists a, b. repeat split; auto. apply linked_snoc. auto.
        -- exists a0, b0. repeat split; auto. apply linked_snoc. right. apply HJ. auto.
        -- exists b0, a0. repeat split; auto. apply linked_snoc. right. apply HJ. auto.
      * intros (a & b & -> & -> & H). apply linked_snoc in H. destruct H as [H|H]; [left; eauto|].
        apply HJ in H. destruct H as (_ & _ & [(-> & ->)|(-> & ->)]); auto.
    + intros a b x H. unfold pairs in H. destruct E2 as [(P & E2)|(P & y & W & D & E2)].
      * rewrite E2 in H. pose proof (mi_len M (Z.of_nat a)) as L. rewrite P in L.
        destruct (ms_values st (Z.of_nat a)); [rewrite combine_nil_r in H; destruct H|discriminate].
      * assert (LL : forall v, List.length (ms_values st v) = List.length (ms_nodes st v)).
        { intro v. pose proof (mi_len M v) as L. rewrite P in L. exact L. }
        apply negb_true_iff in P. rewrite P in W. inversion W; subst y.
        rewrite E1, E2, pairs_link in H by (auto; congruence). apply in_app_iff in H. destruct H as [H|H].
        -- apply link_value_old. apply (gi_val G). exact H.
        -- destruct (Z.eqb_spec (Z.of_nat a) (Z.of_nat a0)) as [Ea|Ea].
           ++ apply Nat2Z.inj in Ea. subst a. destruct H as [H|[]]. inversion H; subst. assert (b = b0) by lia. subst b.
              apply link_value_new; auto. apply HJ. auto.
           ++ destruct (Z.eqb_spec (Z.of_nat a) (Z.of_nat b0)) as [Eb|Eb]; [|destruct H].
              apply Nat2Z.inj in Eb. subst a. destruct H as [H|[]]. inversion H; subst. assert (b = a0) by lia. subst b.
              apply link_value_new; [intro X; apply NL, linked_sym; auto|]. apply HJ. auto.
Qed.

Lemma add_entry_val e st : exists st', add_entry getv conn (entry_state getd pattern e st) = Val st'.
Proof.
  unfold entry_state, add_entry. destruct (_ =? _); eauto. destruct (existsb _ _); eauto.
  destruct pattern; cbn [negb]; eauto. destruct (dlt _ _); eauto.
Qed.

Lemma read_entries_ok n es : Z.of_nat n < 2 ^ 31 ->
  (forall e, In e es -> (1 <= e_row e <= n)%nat /\ (1 <= e_col e <= n)%nat /\ (pattern = false -> word (e_text e))) ->
  forall done st, minv getv conn st -> ginv done st ->
  exists st', rfold (read_entry getd getv conn) (map (entry_line pattern) es) st = Val st' /\ minv getv conn st' /\ ginv (done ++ es) st'.
Proof.
  intros Hn. induction es as [|e es IH]; intros H done st M G.
  - exists st. cbn. rewrite app_nil_r. auto.
  - cbn [map rfold]. destruct (H e (or_introl eq_refl)) as (Hr & Hc & Hw).
    rewrite (@read_entry_line getd pattern conn e n st) by auto.
    destruct (add_entry_val e st) as (st1 & E1). rewrite E1. cbn [rbind].
    destruct (IH (fun x Hx => H x (or_intror Hx)) (done ++ [e]) st1) as (st' & E' & M' & G').
    + eapply added_minv; [|apply add_entry_added; exact E1]. eapply minv_ext; [| |exact M]; reflexivity.
    + eapply ginv_step; eauto.
    + exists st'. rewrite <- app_assoc in G'. auto.
Qed.

Lemma ginv_start : ginv [] mstart.
Proof. split; cbn; [|tauto]. intros v w. split; [tauto|]. intros (a & b & _ & _ & e & [] & _). Qed.
End Entries.

(** *** The whole file *)

Section File.
Variable getd : string -> double.
Variable conn : double.
Variables (kind scheme : string) (pattern : bool) (comments : list string) (n : nat) (es : list entry).
Hypothesis W : well_formed kind scheme pattern comments n es.
Notation text := (file_text kind scheme pattern comments n es).
Notation linked := (MarketSpec.linked getd conn pattern).

Lemma word_one_line w : word w -> one_line w.
Proof. intros (_ & V). eapply chars_impl; [|exact V]. intros c H. apply visible_texty in H. apply H. Qed.

Lemma file_one_lines : Forall one_line (file_lines kind scheme pattern comments n es).
Proof.
  pose proof (fun w => @word_one_line w) as OL.
  assert (SP : one_line " ") by (cbn; split; [discriminate|exact I]).
  assert (HC : forall l, Forall one_line l -> Forall one_line (map (fun c => append "%" c) l)).
  { induction 1 as [|c l Hc Hl IH]; cbn [map]; constructor; auto. cbn. split; [discriminate|exact Hc]. }
  unfold file_lines. constructor.
  - apply chars_app. split; [cbn; repeat (split; [discriminate|]); exact I|].
    apply chars_app. split; [apply OL, (wf_kind W)|]. apply chars_app. split; [exact SP|apply OL, (wf_scheme W)].
  - apply Forall_app. split; [apply HC, (wf_comments W)|].
    assert (NW : forall k, one_line (num k)) by (intro k; apply OL, num_word).
    constructor.
    + apply chars_app; split; [apply NW|]. apply chars_app; split; [exact SP|]. apply chars_app; split; [apply NW|].
      apply chars_app; split; [exact SP|apply NW].
    + apply Forall_forall. intros l Hl. apply in_map_iff in Hl. destruct Hl as (e & <- & He).
      destruct (wf_entries W e He) as (_ & _ & Hw). unfold entry_line.
      apply chars_app; split; [apply NW|]. apply chars_app; split; [exact SP|]. apply chars_app; split; [apply NW|].
      destruct pattern; [exact I|]. apply chars_app; split; [exact SP|]. apply OL. auto.
Qed.

Lemma num_not_comment k s : ~ comment (append (num k) s).
Proof.
  intros (x & E). destruct (num_digits k) as (d & l & HD & En & _). rewrite En in E. cbn in E. inversion E as [E1].
  assert (D : is_digit d) by (inversion HD; auto). unfold is_digit in D.
  assert (C : d = 0 \/ d = 1 \/ d = 2 \/ d = 3 \/ d = 4 \/ d = 5 \/ d = 6 \/ d = 7 \/ d = 8 \/ d = 9) by lia.
  repeat destruct C as [->|C]; try subst d; discriminate.
Qed.

Lemma file_read fuel o : (List.length comments + List.length es + 2 < fuel)%nat -> exists st,
  minv (negb pattern) conn st /\ ginv getd conn pattern es st /\
  read_market getd fuel (Some text) conn o = let* o' := store (negb pattern) (Z.of_nat n) st o in Val (o', true).
Proof.
  intro HF. unfold file_text.
  pose proof (lines_unlines file_one_lines) as EL. unfold file_lines in EL. cbn [app] in EL. fold (file_lines kind scheme pattern comments n es) in EL.
  set (b := append "%%MatrixMarket matrix coordinate " (append kind (append " " scheme))) in *.
  set (h := append (num n) (append " " (append (num n) (append " " (num (List.length es)))))) in *.
  assert (TV : takes_values b = Some (negb pattern)) by (apply takes_values_banner; apply W).
  assert (LB : (String.length (cstr b) < line_length)%nat).
  { assert (LC : forall s, (String.length (cstr s) <= String.length s)%nat).
    { induction s as [|c s IH]; cbn; auto. destruct (Ascii.eqb c nul); cbn; lia. }
    eapply Nat.le_lt_trans; [apply LC|]. unfold b. rewrite !append_length. pose proof (wf_short W).
    change (String.length "%%MatrixMarket matrix coordinate ") with 33%nat. change (String.length " ") with 1%nat. unfold line_length. lia. }
  assert (FP : first_plain (after_banner (b :: ((map (fun c => append "%" c) comments ++ h :: map (entry_line pattern) es) ++ [EmptyString]))) =
               Some (h, map (entry_line pattern) es ++ [EmptyString])).
  { rewrite <- app_assoc. cbn [app].
    replace (after_banner (b :: map (fun c => append "%" c) comments ++ h :: map (entry_line pattern) es ++ [EmptyString]))
      with (map (fun c => append "%" c) comments ++ h :: map (entry_line pattern) es ++ [EmptyString]) by (destruct comments; reflexivity).
    apply first_plain_app; [|apply num_not_comment]. apply Forall_forall. intros l Hl. apply in_map_iff in Hl.
    destruct Hl as (c & <- & _). exists c. reflexivity. }
  destruct (@read_entries_ok getd conn pattern n es (wf_size W) (wf_entries W) [] mstart (minv_start _ conn) (ginv_start getd conn pattern)) as (st & ES & M & G). cbn [app] in G.
  exists st. split; auto. split; auto.
  destruct (read_market_cases getd fuel _ conn o EL) as [(_ & L)|[(_ & T & _)|(getv & _ & T & R)]]; [lia|congruence|].
  rewrite TV in T. inversion T; subst getv. rewrite FP in R. destruct R as [(_ & L)|R].
  - exfalso. rewrite !app_length in L. cbn [List.length] in L. rewrite !map_length in L. cbn [List.length] in L. lia.
  - rewrite R. unfold body_of, h. rewrite (@header_num n (List.length es)) by apply W. rewrite Z.eqb_refl. cbn [negb].
    rewrite Nat2Z.id. rewrite firstn_app, map_length, Nat.sub_diag. cbn [firstn]. rewrite app_nil_r.
    rewrite firstn_all2 by (rewrite map_length; lia). rewrite ES. reflexivity.
Qed.

Theorem file_graph fuel : (List.length comments + List.length es + 2 < fuel)%nat ->
  exists o, read_market getd fuel (Some text) conn gio_new = Val (o, true) /\
    List.length (o_vs o) = (n + 1)%nat /\
    (forall v, (v < n)%nat -> NoDup (part (o_vs o) (o_es o) v) /\
       (forall w, In w (part (o_vs o) (o_es o) v) <-> exists b, w = Z.of_nat b /\ linked es v b)) /\
    (if pattern then o_vals o = [] else
       List.length (o_vals o) = List.length (o_es o) /\
       forall v b x, (v < n)%nat -> In (Z.of_nat b, x) (combine (part (o_vs o) (o_es o) v) (part (o_vs o) (o_vals o) v)) ->
         link_value getd conn pattern es v b = Some x) /\
    exists g l, to_graph o = Some g /\ max_clique g 0 [] = Val (List.length l, l) /\ max_clique_in n (linked es) l /\
      exists k data, max_clique_heu g [] = Val (k, data) /\
        (n = 0%nat /\ k = -1 \/
         exists picks, picks <> [] /\ k = Z.of_nat (List.length picks) /\ clique_in n (linked es) picks).
Proof.
  intro HF. destruct (file_read gio_new HF) as (st & M & G & E).
  destruct (store_spec (negb pattern) (Z.of_nat n) st gio_new) as (mx & Es & _). rewrite Es in E. cbn [rbind] in E.
  set (o := Gio _ _ _ _) in Es, E. exists o. split; auto. apply store_fresh in Es. rename Es into F.
  assert (EL : List.length (o_vs o) = (n + 1)%nat).
  { rewrite (f_vs F), map_length, seq_length, Nat2Z.id. auto. }
  assert (HN : forall v, (v < n)%nat -> (v < Z.to_nat (Z.of_nat n))%nat) by (intros; rewrite Nat2Z.id; auto).
  assert (EP : forall v w, (v < n)%nat -> In w (part (o_vs o) (o_es o) v) <-> exists b, w = Z.of_nat b /\ linked es v b).
  { intros v w Hv. rewrite (fresh_part M F (HN v Hv)), (gi_in G). split.
    - intros (a & b & A & B & L). apply Nat2Z.inj in A. subst. eauto.
    - intros (b & B & L). eauto. }
  assert (LN : forall a b, linked es a b -> (b < n)%nat).
  { intros a b (e & He & J). destruct (wf_entries W e He) as (H1 & H2 & _). unfold MarketSpec.joins in J.
    rewrite !andb_true_iff, orb_true_iff, !andb_true_iff, !Nat.eqb_eq in J. lia. }
  split; auto. split; [|split].
  - intros v Hv. split; [rewrite (fresh_part M F (HN v Hv)); apply (mi_nd M)|]. intro w. apply EP. auto.
  - destruct (any_file_tidy _ _ _ _ E) as (_ & V & _). clear V.
    destruct pattern eqn:EPt; cbn [negb] in *; [apply (f_vals F)|]. split.
    + rewrite (f_vals F), (f_es F). apply (zoffs_same (ms_values st) (ms_nodes st)). apply (mi_len M).
    + intros v b x Hv. rewrite (fresh_part M F (HN v Hv)), (fresh_values M F (HN v Hv)). apply (gi_val G).
  - assert (HB : forall e, In e (o_es o) -> 0 <= e < Z.of_nat (List.length (o_vs o) - 1)).
    { intros e He. rewrite EL. rewrite (f_es F) in He. apply in_flat_map in He. destruct He as (v & _ & He).
      apply (gi_in G) in He. destruct He as (a & b & _ & -> & L). apply LN in L. lia. }
    destruct (any_file_searchable _ _ _ _ E HB) as (g & l & Eg & El & Q & k & data & Eh & Qh). exists g, l. split; auto. split; auto.
    rewrite EL in Q, Qh. replace (n + 1 - 1)%nat with n in Q, Qh by lia.
    assert (K : forall l', clique_in n (fun v w => In (Z.of_nat w) (part (o_vs o) (o_es o) v)) l' <-> clique_in n (linked es) l').
    { intro l'. unfold clique_in. split; intros (A & B & D); repeat split; auto; intros x y Hx Hy Nxy;
        specialize (D x y Hx Hy Nxy); cbv beta in *; pose proof (B x Hx) as Bx.
      - apply EP in D; auto. destruct D as (b & Eb & D). apply Nat2Z.inj in Eb. subst. auto.
      - apply EP; auto. eauto. }
    destruct Q as (Q1 & Q2). split; [split; [apply K; auto|]; intros l' H'; apply Q2, K; auto|].
    exists k, data. split; auto. destruct Qh as [Qh|(picks & P1 & P2 & P3)]; auto.
    right. exists picks. repeat split; auto; apply K in P3; apply P3.
Qed.
End File.

(** ** File names *)

Lemma after_dot_app name e : after_dot e = None -> after_dot (append name (String "." e)) = Some e.
Proof.
  intro H. induction name as [|c s IH]; cbn.
  - rewrite H. reflexivity.
  - rewrite IH. reflexivity.
Qed.

Lemma extension_app name e : after_dot e = None -> file_extension (append name (String "." e)) = e.
Proof. intro H. unfold file_extension. rewrite after_dot_app; auto. Qed.

(** ** Undefined behaviour *)

Theorem read_bad_causes getd fuel text conn o u : read_market getd fuel (Some text) conn o = Bad u ->
  (u = OutOfBounds /\ (256 <= String.length (cstr (hd EmptyString (lines text))))%nat) \/
  (u = OutOfFuel /\ (no_header text \/ (fuel < List.length (lines text))%nat)) \/
  (u = Uninitialised /\ takes_values (hd EmptyString (lines text)) = Some true) \/
  u = IntOverflow.
Proof.
  intro E. destruct (lines_cons text) as (b & rest & L). rewrite L. cbn [hd].
  destruct (read_market_cases getd fuel text conn o L) as [(R & H)|[(_ & _ & R)|(getv & _ & T & R)]].
  - left. rewrite E in R. inversion R. auto.
  - rewrite E in R. discriminate.
  - right. destruct (first_plain _) as [[h body]|] eqn:FP.
    + destruct R as [(R & H)|R]; rewrite E in R.
      * left. inversion R. split; auto. right. cbn. lia.
      * right. unfold body_of in R. destruct (header h) as [[row col] k]. destruct (negb (row =? col)); [discriminate|].
        destruct (rfold _ _ _) as [st|u'] eqn:ES; cbn [rbind] in R.
        -- destruct (store_spec getv row st o) as (mx & Es & _). rewrite Es in R. discriminate.
        -- inversion R; subst u'. rewrite T.
           assert (K : forall ls st, rfold (read_entry getd getv conn) ls st = Bad u -> (u = Uninitialised /\ Some getv = Some true) \/ u = IntOverflow).
           { clear. induction ls as [|l ls IH]; intros st E; [discriminate|]. cbn [rfold] in E.
             destruct (read_entry getd getv conn l st) as [st1|u1] eqn:E1; cbn [rbind] in E; [eauto|].
             inversion E; subst u1. unfold read_entry in E1. destruct l as [|c l]; [discriminate|].
             destruct (extract_int _ _) as [i1 r]. destruct (extract_int i1 _) as [i2 cc]. unfold decr in E1.
             destruct (r =? int_min); [inversion E1; auto|]. destruct (cc =? int_min); [inversion E1; auto|].
             cbn [rbind] in E1. unfold add_entry in E1. destruct (_ =? _); [discriminate|]. destruct (existsb _ _); [discriminate|].
             destruct getv; [|discriminate]. destruct (extract_double _ _ _); [destruct (dlt _ _); discriminate|].
             inversion E1. auto. }
           eapply K; eauto.
    + left. rewrite E in R. inversion R. split; auto. left. apply (no_header_iff _ L). auto.
Qed.

Theorem endless getd text conn o b rest : lines text = b :: rest -> (String.length (cstr b) < 256)%nat -> takes_values b <> None ->
  no_header text <-> forall fuel, read_market getd fuel (Some text) conn o = Bad OutOfFuel.
Proof.
  intros L S0 T. rewrite (no_header_iff _ L). split.
  - intros FP fuel. destruct (read_market_cases getd fuel text conn o L) as [(_ & H)|[(_ & H & _)|(getv & _ & _ & R)]];
      [unfold line_length in H; lia|congruence|]. rewrite FP in R. exact R.
  - intro H. specialize (H (S (List.length rest))). apply read_bad_causes in H.
    destruct H as [(C & _)|[(_ & [C|C])|[(C & _)|C]]]; try discriminate.
    + apply (no_header_iff _ L). auto.
    + rewrite L in C. cbn [List.length] in C. lia.
Qed.

(** ** Reading twice *)

(** The second graph is appended, its neighbour indices unchanged. *)
Theorem read_again getd fuel text conn o o1 : read_market getd fuel (Some text) conn gio_new = Val (o1, true) ->
  exists o2, read_market getd fuel (Some text) conn o = Val (o2, true) /\
    o_vs o2 = o_vs o ++ map (fun k => (List.length (o_es o) + k)%nat) (o_vs o1) /\
    o_es o2 = o_es o ++ o_es o1 /\ o_vals o2 = o_vals o ++ o_vals o1.
Proof.
  intro E. destruct (lines_cons text) as (b & rest & L).
  destruct (read_market_lines getd fuel text conn gio_new L) as (R & _).
  destruct (read_market_lines getd fuel text conn o L) as (R' & _).
  rewrite E in R. rewrite R'. destruct (_ <=? _)%nat; [discriminate|]. destruct (takes_values b) as [getv|]; [|discriminate].
  destruct (skip_comments _ _ _) as [[i h]|u]; [|discriminate]. unfold body_of in *.
  destruct (header h) as [[row col] k]. destruct (negb (row =? col)); [discriminate|].
  destruct (rfold _ _ _) as [st|u]; [|discriminate]. cbn [rbind] in *.
  destruct (store_spec getv row st gio_new) as (mx & Es & _). destruct (store_spec getv row st o) as (mx' & Es' & _).
  rewrite Es in R. rewrite Es'. cbn [rbind] in *. inversion R; subst o1. eexists. split; [reflexivity|]. cbn. rewrite map_map.
  repeat split; auto. destruct getv; auto. rewrite app_nil_r. auto.
Qed.
