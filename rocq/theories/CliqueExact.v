(** * Proofs about the exact search *)
From Verif Require Import Prelude Clique CliqueSpec CliqueRead.
Set Implicit Arguments.

Section Graph.
Variables (g : graph) (n : nat) (adj : nat -> nat -> bool) (nb : nat -> list nat).
Hypothesis R : repr g n adj nb.

Notation dg := (deg nb).

Lemma nb_In v w : In w (nb v) <-> w < n /\ adj v w = true.
Proof. apply (r_in R). Qed.

Lemma nb_NoDup v : NoDup (nb v).
Proof. apply (r_nd R). Qed.

Lemma get_degree_ok v : v < n -> get_degree (g_vs g) v = Val (Z.of_nat (dg v)).
Proof.
  intro H. destruct (r_off R H) as (E1 & E2 & _). unfold get_degree.
  rewrite E1, E2. cbn [rbind]. f_equal. lia.
Qed.

(** A loop over the slice of a vertex is a loop over its neighbours. *)
Lemma slice_loop {A} (F : nat -> A -> res A) v a : v < n ->
  rfold (fun j a => let* e := vget (g_es g) j in F e a)
        (seq (offs nb v) (offs nb v + dg v - offs nb v)) a = rfold F (nb v) a.
Proof.
  intro Hv. replace (_ + dg v - _) with (dg v) by lia.
  destruct (r_off R Hv) as (_ & _ & H).
  assert (G : forall k lo l a, length l = k ->
     (forall i, i < k -> vget (g_es g) (lo + i) = Val (nth i l 0)) ->
     rfold (fun j a => let* e := vget (g_es g) j in F e a) (seq lo k) a = rfold F l a).
  { clear. induction k as [|k IH]; intros lo [|x l] a E Hi; try discriminate E; cbn [seq rfold]; auto.
    rewrite <- (Nat.add_0_r lo) at 1. rewrite (Hi 0) by lia. cbn [rbind nth].
    destruct (F x a); cbn [rbind]; auto. apply IH.
    - simpl in E. lia.
    - intros i Hik. rewrite Nat.add_succ_comm. apply (Hi (S i)). lia. }
  apply G; auto.
Qed.

Definition clq (l : list nat) : Prop :=
  NoDup l /\ (forall x, In x l -> x < n) /\
  (forall x y, In x l -> In y l -> x <> y -> adj x y = true).

Lemma clq_nil : clq [].
Proof. split; [constructor|split; [intros x []|intros x y []]]. Qed.

Lemma clq_deg l x : clq l -> In x l -> length l <= S (dg x).
Proof.
  intros (Hn & Hr & Ha) Hx.
  apply in_split in Hx. destruct Hx as (l1 & l2 & ->).
  rewrite app_length. cbn [length].
  assert (Hn' : NoDup (l1 ++ l2)) by (eapply NoDup_remove_1; eauto).
  assert (Hx : ~ In x (l1 ++ l2)) by (eapply NoDup_remove_2; eauto).
  assert (length (l1 ++ l2) <= dg x).
  { apply NoDup_incl_length; auto. intros y Hy. apply nb_In.
    assert (In y (l1 ++ x :: l2)) by (rewrite in_app_iff in *; simpl; tauto).
    split; [apply Hr; auto|]. apply Ha; auto.
    - apply in_app_iff. right. left. auto.
    - intros ->. contradiction. }
  rewrite app_length in H. lia.
Qed.

(** ** Candidate sets *)

Definition unew_pure (v : nat) (Ur : list nat) (mc : nat) : list nat :=
  flat_map (fun e => if mc <=? dg e then filter (Nat.eqb e) (rev Ur) else []) (nb v).

Lemma rfold_app_acc {A B} (f : B -> list A) l acc :
  rfold (fun x a => Val (a ++ f x)) l acc = Val (acc ++ flat_map f l).
Proof.
  revert acc. induction l as [|x l IH]; intro acc; cbn [rfold flat_map rbind].
  - rewrite app_nil_r. reflexivity.
  - rewrite IH, app_assoc. reflexivity.
Qed.

Lemma rfold_ext_in {A B} (f f' : B -> A -> res A) l a :
  (forall x a, In x l -> f x a = f' x a) -> rfold f l a = rfold f' l a.
Proof.
  revert a. induction l as [|x l IH]; intros a H; cbn [rfold]; auto.
  rewrite H by (left; auto). destruct (f' x a); cbn [rbind]; auto.
  apply IH. intros. apply H. right; auto.
Qed.

Lemma leb_of_nat a b : (Z.of_nat a <=? Z.of_nat b)%Z = (a <=? b).
Proof. apply eq_true_iff_eq. rewrite Z.leb_le, Nat.leb_le. lia. Qed.

Lemma exact_unew_ok v Ur mc : v < n -> exact_unew g v Ur mc = Val (unew_pure v Ur mc).
Proof.
  intro Hv. unfold exact_unew. destruct (r_off R Hv) as (E1 & E2 & _).
  rewrite E1, E2. cbn [rbind]. unfold rfor.
  rewrite slice_loop with (F := fun e un => let* d := get_degree (g_vs g) e in
    Val (if (Z.of_nat mc <=? d)%Z then un ++ filter (Nat.eqb e) (rev Ur) else un)) by exact Hv.
  rewrite rfold_ext_in with (f' := fun e un =>
     Val (un ++ if mc <=? dg e then filter (Nat.eqb e) (rev Ur) else [])).
  - rewrite rfold_app_acc. reflexivity.
  - intros e un He. apply nb_In in He. rewrite get_degree_ok by tauto. cbn [rbind].
    rewrite leb_of_nat. destruct (mc <=? dg e); auto. rewrite app_nil_r. reflexivity.
Qed.

Lemma unew_In v Ur mc x :
  (forall y, In y Ur -> y < n) ->
  In x (unew_pure v Ur mc) <-> In x Ur /\ adj v x = true /\ mc <= dg x.
Proof.
  intro HU. unfold unew_pure. rewrite in_flat_map. split.
  - intros (e & He & Hx). apply nb_In in He.
    destruct (mc <=? dg e) eqn:E; [|destruct Hx].
    apply filter_In in Hx. destruct Hx as [Hx Ex]. apply Nat.eqb_eq in Ex. subst e.
    apply in_rev in Hx. apply Nat.leb_le in E. tauto.
  - intros (Hx & Ha & Hm). exists x. split.
    + apply nb_In. auto.
    + apply Nat.leb_le in Hm. rewrite Hm. apply filter_In. split; [apply -> in_rev; auto|apply Nat.eqb_refl].
Qed.

Lemma NoDup_filter_eqb (e : nat) l : NoDup l -> NoDup (filter (Nat.eqb e) l).
Proof. apply NoDup_filter. Qed.

Lemma NoDup_flat_map_eqb (P : nat -> bool) L l : NoDup L -> NoDup l ->
  NoDup (flat_map (fun e => if P e then filter (Nat.eqb e) l else []) L).
Proof.
  intros HL Hl. induction HL as [|e L He HL IH]; cbn [flat_map]; [constructor|].
  assert (G : forall A (l1 l2 : list A), NoDup l1 -> NoDup l2 -> (forall x, In x l1 -> ~ In x l2) -> NoDup (l1 ++ l2)).
  { clear. induction l1 as [|a l1 IH]; intros l2 H1 H2 Hd; simpl; auto.
    inversion H1; subst. constructor.
    - rewrite in_app_iff. intros [H|H]; [contradiction|]. apply (Hd a); simpl; auto.
    - apply IH; auto. intros x Hx. apply Hd. simpl; auto. }
  apply G; auto.
  - destruct (P e); [apply NoDup_filter; auto|constructor].
  - intros x Hx Hx2. destruct (P e); [|destruct Hx].
    apply filter_In in Hx. destruct Hx as [_ Ex]. apply Nat.eqb_eq in Ex. subst x.
    apply in_flat_map in Hx2. destruct Hx2 as (e' & He' & Hx2).
    destruct (P e'); [|destruct Hx2]. apply filter_In in Hx2. destruct Hx2 as [_ Ex].
    apply Nat.eqb_eq in Ex. subst e'. contradiction.
Qed.

Lemma unew_NoDup v Ur mc : NoDup Ur -> NoDup (unew_pure v Ur mc).
Proof.
  intro H. apply NoDup_flat_map_eqb; [apply nb_NoDup|apply NoDup_rev; auto].
Qed.

Lemma unew_length v Ur mc : NoDup Ur -> (forall y, In y Ur -> y < n) ->
  length (unew_pure v Ur mc) <= length Ur.
Proof.
  intros H HU. apply NoDup_incl_length; [apply unew_NoDup; auto|].
  intros x Hx. apply unew_In in Hx; tauto.
Qed.

(** ** The recursive search *)

(** [U] can extend the clique [P] of size [sz]. *)
Definition ext_ok (P U : list nat) (sz : nat) : Prop :=
  clq P /\ length P = sz /\ NoDup U /\ (forall x, In x U -> x < n) /\
  (forall x p, In x U -> In p P -> x <> p /\ adj x p = true).

(** What a call starting from [(mc, inter)] may return. *)
Definition result_ok (P U : list nat) (sz mc : nat) (inter : list nat) (mc' : nat) (inter' : list nat) : Prop :=
  ((mc' = mc /\ inter' = inter) \/
   (mc < mc' /\ incl inter' U /\ clq (inter' ++ P) /\ length inter' + sz = mc')) /\
  (forall Q, incl Q U -> clq Q -> length Q + sz <= mc').

Lemma clq_app P Q : clq P -> clq Q -> (forall x p, In x Q -> In p P -> x <> p /\ adj x p = true) ->
  clq (Q ++ P).
Proof.
  intros (N1 & R1 & A1) (N2 & R2 & A2) H. split; [|split].
  - clear - N1 N2 H. induction N2 as [|q Q Hq N2 IH]; simpl; auto. constructor.
    + rewrite in_app_iff. intros [E|E]; [contradiction|]. destruct (H q q); simpl; auto.
    + apply IH. intros x p Hx. apply H. simpl; auto.
  - intros x Hx. apply in_app_iff in Hx. destruct Hx; auto.
  - intros x y Hx Hy Hxy. apply in_app_iff in Hx, Hy. destruct Hx as [Hx|Hx], Hy as [Hy|Hy]; auto.
    + apply H; auto.
    + rewrite (r_sym R). apply H; auto.
Qed.

Lemma clq_sub P Q : NoDup Q -> incl Q P -> clq P -> clq Q.
Proof. intros N I (N1 & R1 & A1). split; [|split]; auto. Qed.

Lemma ext_ok_cons P index Ur sz mc :
  ext_ok P (index :: Ur) sz -> ext_ok (index :: P) (rev (unew_pure index Ur mc)) (sz + 1).
Proof.
  intros (HP & HL & HN & HR & HA).
  inversion HN as [|? ? Hni HN']; subst.
  assert (HU : forall y, In y Ur -> y < n) by (intros; apply HR; right; auto).
  split; [|split; [|split; [|split]]].
  - apply (clq_app (P := P) (Q := [index])); auto.
    + split; [|split].
      * constructor; [intros []|constructor].
      * intros x [<-|[]]. apply HR. left; auto.
      * intros x y [<-|[]] [<-|[]] C. elim C; auto.
    + intros x p [<-|[]] Hp. apply HA; auto. left; auto.
  - cbn [length]. lia.
  - apply NoDup_rev, unew_NoDup; auto.
  - intros x Hx. apply in_rev in Hx. apply unew_In in Hx; auto. apply HU. tauto.
  - intros x p Hx Hp. apply in_rev in Hx. apply unew_In in Hx; auto. destruct Hx as (Hx & Ha & _).
    destruct Hp as [<-|Hp].
    + split; [intros ->; contradiction|]. rewrite (r_sym R). auto.
    + apply HA; auto. right; auto.
Qed.

Lemma ext_ok_tl P index Ur sz : ext_ok P (index :: Ur) sz -> ext_ok P Ur sz.
Proof.
  intros (HP & HL & HN & HR & HA). inversion HN; subst.
  split; [|split; [|split; [|split]]]; auto.
  - intros x Hx. apply HR. right; auto.
  - intros x p Hx. apply HA. right; auto.
Qed.

(** The only place where pruning by degree matters. *)
Lemma unew_complete P index Ur sz mc Q1 Q2 :
  ext_ok P (index :: Ur) sz -> incl (Q1 ++ index :: Q2) (index :: Ur) -> clq (Q1 ++ index :: Q2) ->
  mc < length (Q1 ++ index :: Q2) + sz ->
  incl (Q1 ++ Q2) (rev (unew_pure index Ur mc)) /\ clq (Q1 ++ Q2).
Proof.
  intros HE HI HC Hm.
  pose proof HE as (HP & HL & HN & HR & HA).
  assert (HU : forall y, In y Ur -> y < n) by (intros; apply HR; right; auto).
  assert (HF : clq ((Q1 ++ index :: Q2) ++ P)) by (apply clq_app; auto; intros; apply HA; auto).
  destruct HC as (N & Rr & A).
  assert (Hi : ~ In index (Q1 ++ Q2)) by (eapply NoDup_remove_2; eauto).
  assert (Hsub : incl (Q1 ++ Q2) (Q1 ++ index :: Q2)).
  { intros x Hx. rewrite in_app_iff in *. simpl. tauto. }
  split.
  - intros x Hx. apply -> in_rev. apply unew_In; auto.
    assert (Hx' : In x (Q1 ++ index :: Q2)) by auto.
    assert (x <> index) by (intros ->; contradiction).
    split; [|split].
    + destruct (HI x Hx'); [congruence|auto].
    + apply A; auto. apply in_app_iff. right; left; auto.
    + assert (G : length ((Q1 ++ index :: Q2) ++ P) <= S (dg x))
        by (apply clq_deg; auto; apply in_app_iff; auto).
      rewrite app_length in G. lia.
  - eapply clq_sub; [eapply NoDup_remove_1; eauto|exact Hsub|]. split; [|split]; auto.
Qed.

Lemma exact_loop_ok (h : list nat -> nat -> nat -> list nat -> res (nat * list nat)) P sz :
  forall Ur mc inter,
  (forall P' Ur' mc inter, ext_ok P' Ur' (sz + 1) -> length Ur' < length Ur ->
     exists mc' inter', h Ur' (sz + 1) mc inter = Val (mc', inter') /\
       result_ok P' Ur' (sz + 1) mc inter mc' inter') ->
  ext_ok P Ur sz ->
  exists mc' inter', exact_loop g h sz Ur mc inter = Val (mc', inter') /\
    ((mc' = mc /\ inter' = inter) \/
     (mc < mc' /\ incl inter' Ur /\ clq (inter' ++ P) /\ length inter' + sz = mc')) /\
    (forall Q, Q <> [] -> incl Q Ur -> clq Q -> length Q + sz <= mc').
Proof.
  induction Ur as [|index Ur IH]; intros mc inter Hh HE; cbn [exact_loop].
  - exists mc, inter. repeat split; auto. intros Q HQ HI. exfalso. destruct Q as [|q Q]; auto.
    destruct (HI q). left; auto.
  - destruct (sz + length (index :: Ur) <=? mc) eqn:Eb.
    { apply Nat.leb_le in Eb. exists mc, inter. repeat split; auto.
      intros Q _ HI (HN & _). pose proof (NoDup_incl_length HN HI). lia. }
    pose proof HE as (HP & HL & HN & HR & HA).
    assert (HU : forall y, In y Ur -> y < n) by (intros; apply HR; right; auto).
    assert (HN' : NoDup Ur) by (inversion HN; auto).
    rewrite exact_unew_ok by (apply HR; left; auto). cbn [rbind].
    destruct (Hh (index :: P) (rev (unew_pure index Ur mc)) mc inter) as (mc1 & inter1 & E1 & Hr1).
    { apply ext_ok_cons; auto. }
    { rewrite rev_length. pose proof (unew_length index mc HN' HU). cbn [length]. lia. }
    rewrite E1. cbn [rbind].
    destruct (IH mc1 (if mc <? mc1 then inter1 ++ [index] else inter1)) as (mc2 & inter2 & E2 & Hr2 & Hc2).
    { intros P' Ur' mc' inter' He Hl. apply Hh; auto. cbn [length]. lia. }
    { eapply ext_ok_tl; eauto. }
    rewrite E2. exists mc2, inter2. split; [reflexivity|].
    destruct Hr1 as [Hs1 Hc1].
    assert (G1 : (mc1 = mc /\ (if mc <? mc1 then inter1 ++ [index] else inter1) = inter) \/
      (mc < mc1 /\ incl (inter1 ++ [index]) (index :: Ur) /\ clq ((inter1 ++ [index]) ++ P) /\
        length (inter1 ++ [index]) + sz = mc1 /\ (if mc <? mc1 then inter1 ++ [index] else inter1) = inter1 ++ [index])).
    { destruct Hs1 as [[-> ->]|(L & I & C & K)].
      - left. rewrite Nat.ltb_irrefl. auto.
      - right. split; [auto|]. split; [|split; [|split]].
        + intros x Hx. apply in_app_iff in Hx. destruct Hx as [Hx|[<-|[]]]; [|left; auto].
          apply I in Hx. apply in_rev in Hx. apply unew_In in Hx; auto. right. tauto.
        + rewrite <- app_assoc. exact C.
        + rewrite app_length. cbn [length]. lia.
        + apply Nat.ltb_lt in L. rewrite L. auto. }
    split.
    + destruct G1 as [[-> G1]|(L & I & C & K & G1)].
      * rewrite G1 in Hr2. destruct Hr2 as [[-> ->]|(L2 & I2 & C2 & K2)]; auto.
        right. repeat split; auto; try apply C2. intros x Hx. right; auto.
      * rewrite G1 in Hr2. right. destruct Hr2 as [[-> ->]|(L2 & I2 & C2 & K2)].
        -- repeat split; auto; apply C.
        -- repeat split; try lia; try apply C2. intros x Hx. right; auto.
    + assert (Hm1 : mc <= mc1) by (destruct Hs1 as [[-> _]|(L & _)]; lia).
      assert (Hm2 : mc1 <= mc2) by (destruct Hr2 as [[-> _]|(L & _)]; lia).
      intros Q HQ HI HC.
      destruct (in_dec Nat.eq_dec index Q) as [Hin|Hin].
      * destruct (le_lt_dec (length Q + sz) mc) as [Hle|Hgt]; [lia|].
        apply in_split in Hin. destruct Hin as (Q1 & Q2 & ->).
        destruct (unew_complete _ _ HE HI HC Hgt) as [HI' HC'].
        specialize (Hc1 _ HI' HC'). rewrite app_length in *. cbn [length]. lia.
      * apply Hc2; auto. intros x Hx. destruct (HI x Hx); [congruence|auto].
Qed.

Lemma exact_helper_ok : forall fuel P Ur sz mc inter,
  length Ur < fuel -> ext_ok P Ur sz ->
  exists mc' inter', exact_helper fuel g Ur sz mc inter = Val (mc', inter') /\
    result_ok P Ur sz mc inter mc' inter'.
Proof.
  induction fuel as [|fuel IH]; intros P Ur sz mc inter Hf HE; [lia|].
  cbn [exact_helper]. destruct Ur as [|u Ur].
  - assert (Hq : forall mc', sz <= mc' -> forall Q : list nat, incl Q [] -> clq Q -> length Q + sz <= mc').
    { intros mc' Hm Q HI _. destruct Q as [|q Q]; [simpl; lia|]. destruct (HI q). left; auto. }
    destruct (mc <? sz) eqn:E.
    + apply Nat.ltb_lt in E. exists sz, []. split; auto. split; [|apply Hq; auto].
      right. repeat split; auto; try (apply HE). intros x [].
    + apply Nat.ltb_ge in E. exists mc, inter. split; auto. split; [auto|apply Hq; auto].
  - destruct (@exact_loop_ok (fun Ur' sz' mc' i' => exact_helper fuel g Ur' sz' mc' i') P sz (u :: Ur) mc inter)
      as (mc' & inter' & E & Hs & Hc); auto.
    { intros P' Ur' mc0 inter0 He Hl. apply IH; auto. cbn [length] in *. lia. }
    exists mc', inter'. split; auto. split; auto.
    intros Q HI HC. destruct Q as [|q Q]; [|apply Hc; auto; discriminate].
    cbn [length].
    (* the singleton [u] already beats the empty extension *)
    assert (length [u] + sz <= mc'); [|cbn [length] in *; lia].
    apply Hc; [discriminate| |].
    + intros x [<-|[]]. left; auto.
    + destruct HE as (_ & _ & _ & HR & _). split; [|split].
      * constructor; [intros []|constructor].
      * intros x [<-|[]]. apply HR. left; auto.
      * intros x y [<-|[]] [<-|[]] C0. elim C0; auto.
Qed.

(** ** The outer loop *)

Definition bits_at (k : nat) : list bool := map (fun j => k <=? j) (seq 0 n).

Lemma bits_get k j : j < n -> vget (bits_at k) j = Val (k <=? j).
Proof. intro H. apply vget_Val. unfold bits_at. apply (nth_map_seq (fun j => k <=? j)); auto. Qed.

Lemma bits_set i : i < n -> vset (bits_at (S i)) i true = Val (bits_at i).
Proof.
  intro H. rewrite vset_ok by (unfold bits_at; rewrite map_length, seq_length; auto).
  f_equal. apply nth_ext with (d := false) (d' := false).
  - rewrite list_set_length. unfold bits_at. rewrite !map_length. reflexivity.
  - intros j Hj. rewrite list_set_length in Hj. unfold bits_at in Hj. rewrite map_length, seq_length in Hj.
    assert (G : forall k, nth j (bits_at k) false = (k <=? j)).
    { intro k. pose proof (bits_get k Hj) as E. apply vget_Val in E. apply nth_error_nth; auto. }
    rewrite list_set_nth, !G. unfold bits_at. rewrite map_length, seq_length.
    apply Nat.ltb_lt in H. rewrite H, andb_true_r.
    destruct (Nat.eqb_spec j i) as [->|Hne]; apply eq_true_iff_eq; rewrite ?Nat.leb_le; split; intros; try lia; auto.
Qed.

Lemma exact_cands_ok i mc : i < n ->
  exact_cands g (bits_at i) i mc = Val (filter (fun e => (e <? i) && (mc <=? dg e)) (nb i)).
Proof.
  intro Hv. unfold exact_cands. destruct (r_off R Hv) as (E1 & E2 & _).
  rewrite E1, E2. cbn [rbind]. unfold rfor.
  rewrite slice_loop with (F := fun e u =>
    let* seen := vget (bits_at i) e in
    if negb seen then
      let* d := get_degree (g_vs g) e in
      Val (if (Z.of_nat mc <=? d)%Z then u ++ [e] else u)
    else Val u) by exact Hv.
  rewrite rfold_ext_in with (f' := fun e u => Val (u ++ if (e <? i) && (mc <=? dg e) then [e] else [])).
  - rewrite rfold_app_acc. cbn [app]. f_equal.
    induction (nb i) as [|e l IH]; cbn [flat_map filter]; auto.
    rewrite IH. destruct ((e <? i) && (mc <=? dg e)); reflexivity.
  - intros e un He. apply nb_In in He. rewrite bits_get by tauto. cbn [rbind].
    replace (negb (i <=? e)) with (e <? i) by (rewrite Nat.leb_antisym, negb_involutive; auto).
    destruct (e <? i); cbn [andb].
    + rewrite get_degree_ok by tauto. cbn [rbind]. rewrite leb_of_nat.
      destruct (mc <=? dg e); auto. rewrite app_nil_r. auto.
    + rewrite app_nil_r. auto.
Qed.

(** All cliques with a vertex at or above [k] have been accounted for. *)
Definition outer_inv (k mc : nat) (data : list nat) : Prop :=
  clq data /\ length data = mc /\
  forall Q, clq Q -> (exists x, In x Q /\ k <= x) -> length Q <= mc.

Lemma exact_step_ok i mc data : i < n -> outer_inv (S i) mc data ->
  exists mc' data', exact_step g n i (bits_at (S i), mc, data) = Val (bits_at i, mc', data') /\
    outer_inv i mc' data'.
Proof.
  intros Hi (HC & HL & HQ). unfold exact_step.
  rewrite bits_set by auto. cbn [rbind]. rewrite get_degree_ok by auto. cbn [rbind].
  assert (Hsplit : forall Q, clq Q -> (exists x, In x Q /\ i <= x) ->
     length Q <= mc \/ (In i Q /\ forall x, In x Q -> x <= i)).
  { intros Q HCQ (x & Hx & Hxi).
    destruct (existsb (fun y => S i <=? y) Q) eqn:E.
    - apply existsb_exists in E. destruct E as (y & Hy & Ey). apply Nat.leb_le in Ey.
      left. apply HQ; auto. exists y. auto.
    - right. assert (G : forall y, In y Q -> y <= i).
      { intros y Hy. destruct (le_lt_dec (S i) y); [|lia].
        exfalso. apply not_true_iff_false in E. apply E. apply existsb_exists. exists y.
        split; auto. apply Nat.leb_le; auto. }
      split; auto. assert (x = i) by (specialize (G x Hx); lia). subst x. auto. }
  destruct (Z.ltb_spec (Z.of_nat (dg i)) (Z.of_nat mc)) as [Hlt|Hge].
  { exists mc, data. split; auto. split; [auto|split; [auto|]].
    intros Q HCQ Hx. destruct (Hsplit Q HCQ Hx) as [|[Hin _]]; auto.
    pose proof (clq_deg _ HCQ Hin). lia. }
  rewrite exact_cands_ok by auto. cbn [rbind].
  set (u := filter (fun e => (e <? i) && (mc <=? dg e)) (nb i)).
  assert (HU : forall x, In x (rev u) <-> x < i /\ adj i x = true /\ mc <= dg x).
  { intro x. rewrite <- in_rev. unfold u. rewrite filter_In, nb_In, andb_true_iff, Nat.ltb_lt, Nat.leb_le.
    split; intros; repeat split; try tauto; lia. }
  assert (HE : ext_ok [i] (rev u) 1).
  { split; [|split; [|split; [|split]]]; auto.
    - split; [|split].
      + constructor; [intros []|constructor].
      + intros x [<-|[]]. auto.
      + intros x y [<-|[]] [<-|[]] C0. elim C0; auto.
    - apply NoDup_rev, NoDup_filter, nb_NoDup.
    - intros x Hx. apply HU in Hx. lia.
    - intros x p Hx [<-|[]]. apply HU in Hx. split; [lia|]. rewrite (r_sym R). tauto. }
  destruct (@exact_helper_ok (n + 1) [i] (rev u) 1 mc [] ) as (mc' & inter' & E & Hs & Hc); auto.
  { rewrite rev_length. assert (length u <= length (seq 0 n)).
    { apply NoDup_incl_length; [apply NoDup_filter, nb_NoDup|]. intros x Hx. apply in_rev, HU in Hx. apply in_seq. lia. }
    rewrite seq_length in H. lia. }
  rewrite E. cbn [rbind]. eexists _, _. split; [reflexivity|].
  assert (Hmm : mc <= mc') by (destruct Hs as [[-> _]|(L & _)]; lia).
  assert (HQ' : forall Q, clq Q -> (exists x, In x Q /\ i <= x) -> length Q <= mc').
  { intros Q HCQ Hx. destruct (Hsplit Q HCQ Hx) as [|[Hin Hmax]]; [lia|].
    destruct (le_lt_dec (length Q) mc) as [|Hgt]; [lia|].
    pose proof Hin as Hin'. apply in_split in Hin'. destruct Hin' as (Q1 & Q2 & ->).
    pose proof HCQ as (N & Rr & A).
    assert (Hni : ~ In i (Q1 ++ Q2)) by (eapply NoDup_remove_2; eauto).
    assert (length (Q1 ++ Q2) + 1 <= mc').
    { apply Hc.
      - intros x Hx'. assert (Hx2 : In x (Q1 ++ i :: Q2)) by (rewrite in_app_iff in *; simpl; tauto).
        assert (x <> i) by (intros ->; contradiction).
        apply HU. split; [specialize (Hmax x Hx2); lia|]. split; [apply A; auto|].
        pose proof (clq_deg _ HCQ Hx2). lia.
      - eapply clq_sub; [eapply NoDup_remove_1; eauto| |exact HCQ].
        intros x Hx'. rewrite in_app_iff in *; simpl; tauto. }
    rewrite app_length in *. cbn [length]. lia. }
  split; [|split]; auto.
  - destruct Hs as [[-> _]|(L & I & C & K)].
    + rewrite Nat.ltb_irrefl. auto.
    + apply Nat.ltb_lt in L. rewrite L. auto.
  - destruct Hs as [[-> _]|(L & I & C & K)].
    + rewrite Nat.ltb_irrefl. auto.
    + apply Nat.ltb_lt in L. rewrite L, app_length. cbn [length]. auto.
Qed.

Lemma exact_outer : forall k mc data, k <= n -> outer_inv k mc data ->
  exists mc' data', rfold (exact_step g n) (rev (seq 0 k)) (bits_at k, mc, data) = Val (bits_at 0, mc', data') /\
    outer_inv 0 mc' data'.
Proof.
  induction k as [|k IH]; intros mc data Hk HI.
  - exists mc, data. auto.
  - rewrite seq_S, rev_app_distr. cbn [rev app plus rfold].
    destruct (@exact_step_ok k mc data) as (mc1 & d1 & E1 & H1); [lia|auto|].
    rewrite E1. cbn [rbind]. apply IH; [lia|auto].
Qed.

Theorem max_clique_ok :
  exists l, max_clique g 0 [] = Val (length l, l) /\ clq l /\ (forall Q, clq Q -> length Q <= length l).
Proof.
  unfold max_clique. rewrite (r_len R). replace (n + 1 - 1) with n by lia.
  assert (EB : repeat false n = bits_at n).
  { apply nth_ext with (d := false) (d' := false).
    - unfold bits_at. rewrite repeat_length, map_length, seq_length. auto.
    - intros j Hj. rewrite repeat_length in Hj. rewrite nth_repeat.
      pose proof (bits_get n Hj) as E. apply vget_Val in E.
      apply nth_error_nth with (d := false) in E. rewrite E.
      symmetry. apply Nat.leb_gt. auto. }
  rewrite EB.
  destruct (@exact_outer n 0 []) as (mc & data & E & HC & HL & HQ); auto.
  { split; [apply clq_nil|split; [auto|]]. intros Q (_ & Rr & _) (x & Hx & Hn).
    specialize (Rr x Hx). lia. }
  rewrite E. cbn [rbind]. subst mc. exists data. split; auto. split; auto.
  intros Q HCQ. destruct Q as [|q Q]; [simpl; lia|].
  apply HQ; auto. exists q. split; [left; auto|lia].
Qed.

End Graph.

Lemma clq_is_clique m l : clq (m_rows m) (adjb m) l <-> is_clique m l.
Proof.
  unfold clq, is_clique. split; intros (N & Rr & A); (split; [auto|split; [auto|]]); intros x y Hx Hy Hxy;
    apply adjb_edge; auto.
Qed.

Theorem find_max_clique_exact m :
  exists l, find_max_clique m = Val (length l, l) /\ is_max_clique m l.
Proof.
  unfold find_max_clique. destruct (read_eigen_repr m) as (g & E & R).
  rewrite E. cbn [rbind]. destruct (max_clique_ok R) as (l & El & HC & HQ).
  exists l. split; auto. split; [apply clq_is_clique; auto|].
  intros Q HQ'. apply HQ. apply clq_is_clique. auto.
Qed.
