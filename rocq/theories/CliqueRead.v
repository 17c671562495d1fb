(** * Proofs about reading a matrix into the compressed graph *)
From Verif Require Import Prelude Clique CliqueSpec.
From Coq Require Import Permutation.
Set Implicit Arguments.

(** Boolean adjacency. *)
Definition adjb (m : matrix) (i j : nat) : bool :=
  (i <? m_rows m) && (j <? m_rows m) &&
  (((j <? i) && (j <? m_cols m) && m_at m i j) ||
   ((i <? j) && (i <? m_cols m) && m_at m j i)).

Lemma adjb_edge m i j : adjb m i j = true <-> edge m i j.
Proof.
  unfold adjb, edge.
  rewrite !andb_true_iff, !orb_true_iff, !andb_true_iff, !Nat.ltb_lt. tauto.
Qed.

Lemma edge_sym m i j : edge m i j -> edge m j i.
Proof. unfold edge. tauto. Qed.

Lemma edge_irr m i : ~ edge m i i.
Proof. unfold edge. lia. Qed.

Lemma adjb_sym m i j : adjb m i j = adjb m j i.
Proof.
  apply eq_true_iff_eq. rewrite !adjb_edge. split; apply edge_sym.
Qed.

Lemma adjb_irr m i : adjb m i i = false.
Proof.
  destruct (adjb m i i) eqn:E; auto. apply adjb_edge in E. elim (edge_irr E).
Qed.

Definition nbl (n : nat) (adj : nat -> nat -> bool) (v : nat) : list nat :=
  filter (adj v) (seq 0 n).

Lemma filter_none {A} (f : A -> bool) l : (forall x, In x l -> f x = false) -> filter f l = [].
Proof.
  induction l as [|a l IH]; simpl; intro H; auto.
  rewrite (H a) by auto. apply IH. auto.
Qed.

Lemma filter_snoc n x (P P' : nat -> bool) :
  x < n -> (forall w, P w = true -> w < x) -> (forall w, w < n -> P' w = P w || (w =? x)) ->
  filter P' (seq 0 n) = filter P (seq 0 n) ++ [x].
Proof.
  intros Hx HP HP'.
  replace n with (x + S (n - x - 1)) by lia.
  rewrite seq_app, !filter_app. cbn [seq filter plus].
  assert (E1 : filter P' (seq 0 x) = filter P (seq 0 x)).
  { apply filter_ext_in. intros a Ha. apply in_seq in Ha. rewrite HP' by lia.
    replace (a =? x) with false by (symmetry; apply Nat.eqb_neq; lia). apply orb_false_r. }
  assert (E2 : P x = false) by (destruct (P x) eqn:E; auto; apply HP in E; lia).
  rewrite E1, (HP' x Hx), E2, Nat.eqb_refl. cbn [orb].
  rewrite (@filter_none _ P (seq (S x) (n - x - 1))).
  - rewrite (@filter_none _ P' (seq (S x) (n - x - 1))).
    + rewrite app_nil_r. reflexivity.
    + intros a Ha. apply in_seq in Ha. rewrite HP' by lia.
      replace (a =? x) with false by (symmetry; apply Nat.eqb_neq; lia).
      destruct (P a) eqn:E; auto. apply HP in E; lia.
  - intros a Ha. apply in_seq in Ha. destruct (P a) eqn:E; auto. apply HP in E; lia.
Qed.

(** Edges already seen when the double loop is about to visit row [r] of column [c]. *)
Definition seen (c r v w : nat) : bool :=
  (Nat.min v w <? c) || ((Nat.min v w =? c) && (Nat.max v w <? r)).

Definition nl_at (m : matrix) (c r : nat) (nl : nodelist) : Prop :=
  forall v, nl v = filter (fun w => adjb m v w && seen c r v w) (seq 0 (m_rows m)).

Lemma seen_step c r v w :
  seen c (S r) v w = seen c r v w || ((Nat.min v w =? c) && (Nat.max v w =? r)).
Proof.
  apply eq_true_iff_eq. unfold seen.
  rewrite !orb_true_iff, !andb_true_iff, !Nat.ltb_lt, !Nat.eqb_eq. lia.
Qed.

Lemma read_body_step m c r nl :
  c <= r -> r < m_rows m -> c < m_cols m ->
  nl_at m c r nl -> nl_at m c (S r) (read_body m c r nl).
Proof.
  intros Hcr Hr Hc H. unfold read_body.
  destruct (r =? c) eqn:Erc.
  { apply Nat.eqb_eq in Erc. subst r. cbn [orb]. intro v. rewrite H.
    apply filter_ext. intro w. rewrite seen_step.
    destruct (adjb m v w) eqn:E; auto. cbn [andb].
    apply adjb_edge in E.
    destruct ((Nat.min v w =? c) && (Nat.max v w =? c)) eqn:E2; [|symmetry; apply orb_false_r].
    apply andb_true_iff in E2. rewrite !Nat.eqb_eq in E2.
    assert (v = w) by lia. subst. elim (edge_irr E). }
  apply Nat.eqb_neq in Erc. cbn [orb].
  assert (Hlt : c < r) by lia.
  destruct (m_at m r c) eqn:Em; cbn [negb].
  - assert (Hadj : adjb m r c = true) by (apply adjb_edge; unfold edge; repeat split; try lia; left; auto).
    assert (Hn : existsb (Nat.eqb c) (nl r) = false).
    { apply not_true_iff_false. intro Hx. apply existsb_exists in Hx. destruct Hx as [w [Hw Ew]].
      apply Nat.eqb_eq in Ew. subst w. rewrite H in Hw. apply filter_In in Hw. destruct Hw as [_ Hw].
      apply andb_true_iff in Hw. destruct Hw as [_ Hw]. unfold seen in Hw.
      rewrite orb_true_iff, andb_true_iff, !Nat.ltb_lt, Nat.eqb_eq in Hw. lia. }
    rewrite Hn. intro v. unfold nl_push.
    destruct (v =? c) eqn:Evc.
    + apply Nat.eqb_eq in Evc. subst v.
      replace (c =? r) with false by (symmetry; apply Nat.eqb_neq; lia).
      rewrite H. symmetry. apply filter_snoc; [lia| |].
      * intros w Hw. apply andb_true_iff in Hw. destruct Hw as [_ Hw]. unfold seen in Hw.
        rewrite orb_true_iff, andb_true_iff, !Nat.ltb_lt, Nat.eqb_eq in Hw. lia.
      * intros w Hw. rewrite seen_step.
        destruct (w =? r) eqn:Ewr.
        -- apply Nat.eqb_eq in Ewr. subst w. rewrite adjb_sym, Hadj.
           replace (Nat.min c r =? c) with true by (symmetry; apply Nat.eqb_eq; lia).
           replace (Nat.max c r =? r) with true by (symmetry; apply Nat.eqb_eq; lia).
           cbn [andb]. rewrite !orb_true_r. reflexivity.
        -- apply Nat.eqb_neq in Ewr.
           replace (Nat.max c w =? r) with false by (symmetry; apply Nat.eqb_neq; lia).
           rewrite andb_false_r, !orb_false_r. reflexivity.
    + destruct (v =? r) eqn:Evr.
      * apply Nat.eqb_eq in Evr. subst v. rewrite H. symmetry. apply filter_snoc; [lia| |].
        -- intros w Hw. apply andb_true_iff in Hw. destruct Hw as [_ Hw]. unfold seen in Hw.
           rewrite orb_true_iff, andb_true_iff, !Nat.ltb_lt, Nat.eqb_eq in Hw. lia.
        -- intros w Hw. rewrite seen_step.
           destruct (w =? c) eqn:Ewc.
           ++ apply Nat.eqb_eq in Ewc. subst w. rewrite Hadj.
              replace (Nat.min r c =? c) with true by (symmetry; apply Nat.eqb_eq; lia).
              replace (Nat.max r c =? r) with true by (symmetry; apply Nat.eqb_eq; lia).
              cbn [andb]. rewrite !orb_true_r. reflexivity.
           ++ apply Nat.eqb_neq in Ewc.
              replace (Nat.min r w =? c) with false by (symmetry; apply Nat.eqb_neq; lia).
              cbn [andb]. rewrite !orb_false_r. reflexivity.
      * apply Nat.eqb_neq in Evc, Evr. rewrite H. apply filter_ext. intro w. rewrite seen_step.
        replace ((Nat.min v w =? c) && (Nat.max v w =? r)) with false; [rewrite orb_false_r; reflexivity|].
        symmetry. apply not_true_iff_false. rewrite andb_true_iff, !Nat.eqb_eq. lia.
  - intro v. rewrite H. apply filter_ext. intro w. rewrite seen_step.
    destruct (adjb m v w) eqn:E; auto. cbn [andb].
    destruct ((Nat.min v w =? c) && (Nat.max v w =? r)) eqn:E2; [|symmetry; apply orb_false_r].
    apply andb_true_iff in E2. rewrite !Nat.eqb_eq in E2.
    apply adjb_edge in E. unfold edge in E. exfalso.
    destruct E as (_ & _ & [(E1 & E3 & E4)|(E1 & E3 & E4)]).
    + assert (v = r /\ w = c) as [-> ->] by lia. congruence.
    + assert (v = c /\ w = r) as [-> ->] by lia. congruence.
Qed.

Lemma nl_at_ext m c r c' r' nl :
  (forall v w, adjb m v w = true -> seen c r v w = seen c' r' v w) ->
  nl_at m c r nl -> nl_at m c' r' nl.
Proof.
  intros He H v. rewrite H. apply filter_ext. intro w.
  destruct (adjb m v w) eqn:E; auto. cbn [andb]. apply He; auto.
Qed.

Lemma read_inner m c nl : c < m_cols m ->
  forall k r, c <= r -> r + k = m_rows m ->
  nl_at m c r nl ->
  nl_at m c (m_rows m) (fold_left (fun nl i => read_body m c i nl) (seq r k) nl).
Proof.
  intros Hc k. revert nl. induction k as [|k IH]; intros nl r Hr E H; cbn [seq fold_left].
  - replace (m_rows m) with r by lia. exact H.
  - apply IH; try lia. apply read_body_step; auto; lia.
Qed.

Lemma read_outer m : forall k c nl, c + k = m_cols m ->
  nl_at m c c nl ->
  nl_at m (m_cols m) (m_cols m)
    (fold_left (fun nl j => fold_left (fun nl i => read_body m j i nl) (seq j (m_rows m - j)) nl)
               (seq c k) nl).
Proof.
  induction k as [|k IH]; intros c nl E H; cbn [seq fold_left].
  - replace (m_cols m) with c by lia. exact H.
  - apply IH; [lia|].
    destruct (le_lt_dec c (m_rows m)) as [Hc|Hc].
    + eapply nl_at_ext; [|apply (@read_inner m c nl) with (k := m_rows m - c) (r := c); try lia; exact H].
      intros v w Hv. apply adjb_edge in Hv. unfold edge in Hv. unfold seen.
      apply eq_true_iff_eq.
      rewrite !orb_true_iff, !andb_true_iff, !Nat.ltb_lt, !Nat.eqb_eq. lia.
    + replace (m_rows m - c) with 0 by lia. cbn [seq fold_left].
      eapply nl_at_ext; [|exact H].
      intros v w Hv. apply adjb_edge in Hv. unfold edge in Hv. unfold seen.
      apply eq_true_iff_eq.
      rewrite !orb_true_iff, !andb_true_iff, !Nat.ltb_lt, !Nat.eqb_eq. lia.
Qed.

Lemma read_nodelist_spec m v :
  read_nodelist m v = nbl (m_rows m) (adjb m) v.
Proof.
  unfold read_nodelist.
  rewrite (@read_outer m (m_cols m) 0 (fun _ => [])); [|lia|].
  - unfold nbl. apply filter_ext. intro w.
    destruct (adjb m v w) eqn:E; auto. cbn [andb].
    apply adjb_edge in E. unfold edge in E. unfold seen.
    apply orb_true_iff. left. apply Nat.ltb_lt. lia.
  - intro w. symmetry. apply filter_none. intros x Hx. unfold seen.
    rewrite andb_false_iff. destruct (adjb m w x) eqn:E; auto. right.
    apply adjb_edge in E. unfold edge in E.
    apply not_true_iff_false. rewrite orb_true_iff, andb_true_iff, !Nat.ltb_lt, Nat.eqb_eq. lia.
Qed.

(** Compressed arrays. *)
Definition offs (nb : nat -> list nat) (i : nat) : nat := length (flat_map nb (seq 0 i)).

Lemma read_csr_spec rows nl :
  read_csr rows nl = (map (offs nl) (seq 0 (rows + 1)), flat_map nl (seq 0 rows)).
Proof.
  unfold read_csr. induction rows as [|r IH].
  - reflexivity.
  - rewrite seq_S, fold_left_app, IH. cbn [fold_left].
    replace (S r + 1) with (S (r + 1)) by lia.
    rewrite (seq_S (r + 1)), map_app. cbn [map]. rewrite flat_map_app. cbn [flat_map].
    rewrite app_nil_r. cbn [plus]. f_equal. f_equal. f_equal. unfold offs.
    rewrite Nat.add_1_r, seq_S, flat_map_app. cbn [flat_map plus].
    rewrite app_nil_r. reflexivity.
Qed.

Lemma offs_S nb v : offs nb (S v) = offs nb v + length (nb v).
Proof.
  unfold offs. rewrite seq_S, flat_map_app, app_length. cbn [flat_map plus].
  rewrite app_nil_r. reflexivity.
Qed.

Lemma flat_map_nth nb n v k d : v < n -> k < length (nb v) ->
  nth (offs nb v + k) (flat_map nb (seq 0 n)) d = nth k (nb v) d.
Proof.
  intros Hv Hk. replace n with (v + S (n - v - 1)) by lia.
  rewrite seq_app, flat_map_app. cbn [seq flat_map plus].
  rewrite app_nth2; [|unfold offs; lia].
  unfold offs. replace (_ + k - _) with k by lia.
  rewrite app_nth1; auto.
Qed.

Lemma offs_mono nb v w : v <= w -> offs nb v <= offs nb w.
Proof.
  induction 1; auto. rewrite offs_S. lia.
Qed.

(** ** A compressed graph that represents an adjacency relation, in any order of the neighbours *)
Definition deg (nb : nat -> list nat) v := length (nb v).

Record repr (g : graph) (n : nat) (adj : nat -> nat -> bool) (nb : nat -> list nat) : Prop := {
  r_len : length (g_vs g) = n + 1;
  r_off : forall v, v < n ->
    vget (g_vs g) v = Val (offs nb v) /\
    vget (g_vs g) (v + 1) = Val (offs nb v + deg nb v) /\
    forall k, k < deg nb v -> vget (g_es g) (offs nb v + k) = Val (nth k (nb v) 0);
  r_in : forall v w, In w (nb v) <-> w < n /\ adj v w = true;
  r_nd : forall v, NoDup (nb v);
  r_sym : forall x y, adj x y = adj y x;
  r_irr : forall x, adj x x = false;
  r_max : forall v, v < n -> (Z.of_nat (deg nb v) <= g_maxdeg g)%Z;
  r_max_ex : (exists v, v < n /\ g_maxdeg g = Z.of_nat (deg nb v)) \/ (n = 0 /\ g_maxdeg g = (-1)%Z) }.

Lemma nth_map_seq {A} (f : nat -> A) n v : v < n -> nth_error (map f (seq 0 n)) v = Some (f v).
Proof.
  intro H. apply map_nth_error. rewrite nth_error_nth' with (d := 0).
  - rewrite seq_nth; auto.
  - rewrite seq_length. exact H.
Qed.

Lemma calc_max_degree_spec n nb :
  exists mx, calc_max_degree (map (offs nb) (seq 0 (n + 1))) = Val mx /\
    (forall v, v < n -> (Z.of_nat (length (nb v)) <= mx)%Z) /\
    ((exists v, v < n /\ mx = Z.of_nat (length (nb v))) \/ (n = 0 /\ mx = (-1)%Z)).
Proof.
  unfold calc_max_degree, rfor. rewrite map_length, seq_length.
  replace (n + 1 - 1 - 0) with n by lia.
  set (vs := map (offs nb) (seq 0 (n + 1))).
  assert (G : forall v, v < n -> get_degree vs v = Val (Z.of_nat (length (nb v)))).
  { intros v Hv. unfold get_degree, vs, vget.
    rewrite !nth_map_seq by lia. cbn [rbind]. rewrite Nat.add_1_r, offs_S. f_equal. lia. }
  assert (H : forall k, k <= n -> exists mx,
     rfold (fun i mx => let* d := get_degree vs i in Val (if (mx <? d)%Z then d else mx)) (seq 0 k) (-1)%Z = Val mx /\
    (forall v, v < k -> (Z.of_nat (length (nb v)) <= mx)%Z) /\
    ((exists v, v < k /\ mx = Z.of_nat (length (nb v))) \/ (k = 0 /\ mx = (-1)%Z))).
  { induction k as [|k IH]; intro Hk.
    - exists (-1)%Z. repeat split; auto. intros; lia.
    - destruct IH as (mx & E & Hle & Hex); [lia|].
      rewrite seq_S, rfold_app, E. cbn [rbind rfold plus]. rewrite G by lia. cbn [rbind].
      eexists. split; [reflexivity|].
      destruct (Z.ltb_spec mx (Z.of_nat (length (nb k)))) as [L|L].
      + split; [|left; exists k; split; auto; lia].
        intros v Hv. destruct (Nat.eq_dec v k) as [->|]; [lia|]. specialize (Hle v); lia.
      + split.
        * intros v Hv. destruct (Nat.eq_dec v k) as [->|]; [lia|]. apply Hle; lia.
        * destruct Hex as [(v & Hv & Ev)|(H0 & E0)].
          -- left. exists v. split; auto; lia.
          -- exfalso. lia. }
  apply H. lia.
Qed.

Lemma nbl_In n adj v w : In w (nbl n adj v) <-> w < n /\ adj v w = true.
Proof. unfold nbl. rewrite filter_In, in_seq. split; intros [? ?]; split; auto; lia. Qed.

Lemma nbl_NoDup n adj v : NoDup (nbl n adj v).
Proof. apply NoDup_filter, seq_NoDup. Qed.

(** The compressed arrays of any neighbour lists. *)
Lemma csr_repr n adj nl : (forall v w, In w (nl v) <-> w < n /\ adj v w = true) -> (forall v, NoDup (nl v)) ->
  (forall x y, adj x y = adj y x) -> (forall x, adj x x = false) ->
  exists g, (let '(vs, es) := read_csr n nl in let* mx := calc_max_degree vs in Val (Graph vs es mx)) = Val g /\
    repr g n adj nl.
Proof.
  intros HI HN HS HR. rewrite read_csr_spec.
  destruct (calc_max_degree_spec n nl) as (mx & E & Hle & Hex).
  rewrite E. cbn [rbind]. eexists. split; [reflexivity|].
  split; cbn [g_vs g_es g_maxdeg]; auto.
  - rewrite map_length, seq_length. reflexivity.
  - intros v Hv. unfold deg, vget.
    rewrite !nth_map_seq by lia. rewrite Nat.add_1_r, offs_S. repeat split.
    intros k Hk.
    assert (HL : offs nl v + k < length (flat_map nl (seq 0 n))).
    { pose proof (offs_mono nl Hv) as Hm. rewrite offs_S in Hm. fold (offs nl n). lia. }
    rewrite nth_error_nth' with (d := 0) by exact HL.
    rewrite flat_map_nth; auto.
Qed.

Theorem read_eigen_repr m :
  exists g, read_eigen m = Val g /\ repr g (m_rows m) (adjb m) (read_nodelist m).
Proof.
  apply csr_repr.
  - intros v w. rewrite read_nodelist_spec. apply nbl_In.
  - intro v. rewrite read_nodelist_spec. apply nbl_NoDup.
  - apply adjb_sym.
  - apply adjb_irr.
Qed.

(** ** The reader in specification vocabulary *)

Lemma repr_neighbours g n adj nb v : repr g n adj nb -> v < n -> csr_neighbours g v = nb v.
Proof.
  intros R Hv. destruct (r_off R Hv) as (E1 & E2 & E3). unfold csr_neighbours.
  apply vget_Val in E1, E2. rewrite (nth_error_nth _ _ _ E1), (nth_error_nth _ _ _ E2).
  replace (_ + deg nb v - _) with (deg nb v) by lia.
  assert (HG : forall k lo l (es : list nat), length l = k ->
     (forall i, i < k -> nth_error es (lo + i) = Some (nth i l 0)) -> firstn k (skipn lo es) = l).
  { clear. intros k lo l es. revert k l es. induction lo as [|lo IH]; intros k l es Hl H.
    - cbn [skipn]. revert l es Hl H. induction k as [|k IHk]; intros [|x l] es Hl H; try discriminate Hl; auto.
      specialize (H 0 ltac:(lia)) as H0. destruct es as [|e es]; [discriminate|].
      simpl in H0. inversion H0; subst. cbn [firstn]. f_equal. apply IHk; [simpl in Hl; lia|].
      intros i Hi. apply (H (S i)). lia.
    - destruct es as [|e es].
      + destruct l as [|x l]; [subst; reflexivity|]. specialize (H 0). simpl in Hl. subst k.
        assert (C : nth_error (@nil nat) (S lo + 0) = Some (nth 0 (x :: l) 0)) by (apply H; lia).
        destruct (S lo + 0); discriminate.
      + cbn [skipn]. apply IH; auto. }
  apply HG; auto. intros i Hi. apply vget_Val. apply E3; auto.
Qed.

Theorem read_eigen_spec m : exists g, read_eigen m = Val g /\
  length (g_vs g) = m_rows m + 1 /\
  (forall v, v < m_rows m -> NoDup (csr_neighbours g v) /\ forall w, In w (csr_neighbours g v) <-> edge m v w) /\
  (forall v, v < m_rows m -> (Z.of_nat (length (csr_neighbours g v)) <= g_maxdeg g)%Z) /\
  ((exists v, v < m_rows m /\ g_maxdeg g = Z.of_nat (length (csr_neighbours g v))) \/
   (m_rows m = 0 /\ g_maxdeg g = (-1)%Z)).
Proof.
  destruct (read_eigen_repr m) as (g & E & R). exists g. split; auto. split; [apply (r_len R)|].
  split; [|split].
  - intros v Hv. rewrite (repr_neighbours R Hv). split; [apply (r_nd R)|].
    intro w. rewrite (r_in R), adjb_edge. split; [tauto|].
    intro H. split; auto. destruct H as (_ & H & _). lia.
  - intros v Hv. rewrite (repr_neighbours R Hv). apply (r_max R Hv).
  - destruct (r_max_ex R) as [(v & Hv & Ev)|H0]; auto. left. exists v. split; auto.
    rewrite (repr_neighbours R Hv). exact Ev.
Qed.

Theorem read_eigen_lower m m' : m_rows m = m_rows m' -> m_cols m = m_cols m' ->
  (forall i j, j < i -> i < m_rows m -> j < m_cols m -> m_at m i j = m_at m' i j) ->
  read_eigen m = read_eigen m'.
Proof.
  intros Hr Hc H. unfold read_eigen. rewrite !read_csr_spec.
  assert (Hn : forall v, read_nodelist m v = read_nodelist m' v).
  { intro v. rewrite !read_nodelist_spec. unfold nbl. rewrite <- Hr. apply filter_ext_in.
    intros w Hw. apply in_seq in Hw. apply eq_true_iff_eq. rewrite !adjb_edge. unfold edge.
    rewrite <- Hr, <- Hc. split; intros (H1 & H2 & [(H3 & H4 & H5)|(H3 & H4 & H5)]);
      repeat (split; auto); ((left; repeat (split; auto); rewrite <- H5) || (right; repeat (split; auto); rewrite <- H5)).
    all: first [apply H; lia | symmetry; apply H; lia]. }
  assert (Ho : forall i, offs (read_nodelist m) i = offs (read_nodelist m') i).
  { intro i. unfold offs. f_equal. apply flat_map_ext. exact Hn. }
  rewrite <- Hr. rewrite (map_ext _ _ Ho), (flat_map_ext _ _ Hn). reflexivity.
Qed.
