(** * Proofs about the heuristic searches *)
From Verif Require Import Prelude Clique CliqueSpec CliqueRead CliqueExact.
Set Implicit Arguments.

Lemma firstn_snoc {A} (l : list A) k x : nth_error l k = Some x -> firstn (S k) l = firstn k l ++ [x].
Proof.
  revert k. induction l as [|y l IH]; intros [|k] H; simpl in H; try discriminate; auto.
  - inversion H; auto.
  - simpl. f_equal. apply IH; auto.
Qed.

Lemma firstn_plus {A} (l : list A) a b : firstn (a + b) l = firstn a l ++ firstn b (skipn a l).
Proof.
  revert l. induction a as [|a IH]; intros [|x l]; simpl; auto.
  - destruct b; auto.
  - f_equal. apply IH.
Qed.

Lemma array_loop {A B} (F : A -> B -> res B) (l : list A) k b : k <= length l ->
  rfold (fun j b => let* x := vget l j in F x b) (seq 0 k) b = rfold F (firstn k l) b.
Proof.
  intro H. revert b. induction k as [|k IH]; intro b; auto.
  destruct (nth_error l k) as [x|] eqn:E; [|apply nth_error_None in E; lia].
  rewrite seq_S, (firstn_snoc _ _ E), !rfold_app, IH by lia.
  destruct (rfold F (firstn k l) b); cbn [rbind rfold plus]; auto.
  unfold vget. rewrite E. cbn [rbind]. reflexivity.
Qed.

Lemma push_loop {A} (P : A -> bool) (l : list A) : forall (arr : list A) p,
  p + length (filter P l) <= length arr ->
  exists arr',
    rfold (fun e '(arr, p) => if P e then let* arr' := vset arr p e in Val (arr', p + 1) else Val (arr, p))
      l (arr, p) = Val (arr', p + length (filter P l)) /\
    length arr' = length arr /\
    firstn (p + length (filter P l)) arr' = firstn p arr ++ filter P l /\
    skipn (p + length (filter P l)) arr' = skipn (p + length (filter P l)) arr.
Proof.
  induction l as [|e l IH]; intros arr p H; cbn [rfold filter].
  - exists arr. cbn [length]. rewrite Nat.add_0_r, app_nil_r. auto.
  - cbn [filter] in H. destruct (P e) eqn:E.
    + cbn [length] in H. rewrite vset_ok by lia. cbn [rbind].
      destruct (IH (list_set arr p e) (p + 1)) as (arr' & E' & L & F1 & F2).
      { rewrite list_set_length. lia. }
      rewrite E'. exists arr'. cbn [length].
      replace (p + S (length (filter P l))) with (p + 1 + length (filter P l)) by lia.
      rewrite list_set_length in L. split; auto. split; auto. split.
      * rewrite F1, Nat.add_1_r, list_set_firstn by lia. rewrite <- app_assoc. reflexivity.
      * rewrite F2, list_set_skipn by lia. reflexivity.
    + cbn [rbind]. apply IH; auto.
Qed.

Section Graph.
Variables (g : graph) (n : nat) (adj : nat -> nat -> bool) (nb : nat -> list nat).
Hypothesis R : repr g n adj nb.

Notation dg := (deg nb).
Notation clq := (clq n adj).

(** Survivors of the degree pruning at best size [mc]. *)
Definition strong (mc : Z) (x : nat) : bool := (mc <=? Z.of_nat (dg x))%Z.

Lemma heu_fill_ok mc c arr : c < n -> 1 + dg c <= length arr ->
  exists arr', heu_fill g mc c arr = Val (arr', 1 + length (filter (strong mc) (nb c))) /\
    length arr' = length arr /\
    firstn (1 + length (filter (strong mc) (nb c))) arr' = c :: filter (strong mc) (nb c) /\
    skipn (1 + length (filter (strong mc) (nb c))) arr' = skipn (1 + length (filter (strong mc) (nb c))) arr.
Proof.
  intros Hc HL. unfold heu_fill.
  rewrite vset_ok by lia. cbn [rbind].
  destruct (r_off R Hc) as (E1 & E2 & _). rewrite E2, E1. cbn [rbind]. unfold rfor.
  rewrite rfold_ext_in with (f' := fun j a =>
    let* e := vget (g_es g) j in
    (fun e '(vS, ipos) => let* d := get_degree (g_vs g) e in
      if (mc <=? d)%Z then let* vS' := vset vS ipos e in Val (vS', ipos + 1) else Val (vS, ipos)) e a).
  2:{ intros j [vS ipos] _. destruct (vget (g_es g) j) as [e|u] eqn:E; cbn [rbind]; auto. }
  rewrite slice_loop with (n := n) (adj := adj) (nb := nb) by auto.
  rewrite rfold_ext_in with (f' := fun e '(arr, p) =>
    if strong mc e then let* arr' := vset arr p e in Val (arr', p + 1) else Val (arr, p)).
  2:{ intros e [vS ipos] He. apply (nb_In R) in He. rewrite (get_degree_ok R) by tauto. reflexivity. }
  destruct (push_loop (strong mc) (nb c) (list_set arr 0 c) 1) as (arr' & E & L & F1 & F2).
  { rewrite list_set_length. pose proof (filter_length_le (strong mc) (nb c)). unfold deg in HL. lia. }
  rewrite list_set_length in L. exists arr'. split; [exact E|]. split; [auto|]. split.
  - rewrite F1, (list_set_firstn arr) by lia. reflexivity.
  - rewrite F2, list_set_skipn by lia. reflexivity.
Qed.

Definition keep (mc : Z) (v x : nat) : bool := adj v x && strong mc x.

Lemma heu_scan_ok mc v x : v < n -> x < n ->
  heu_scan g mc x (seq (offs nb v) (offs nb v + dg v - offs nb v)) = Val (keep mc v x).
Proof.
  intros Hv Hx. replace (_ + dg v - _) with (dg v) by lia.
  destruct (r_off R Hv) as (_ & _ & H).
  assert (G : forall k lo l, length l = k -> (forall y, In y l -> y < n) ->
     (forall i, i < k -> vget (g_es g) (lo + i) = Val (nth i l 0)) ->
     heu_scan g mc x (seq lo k) = Val (existsb (Nat.eqb x) l && strong mc x)).
  { clear H. induction k as [|k IH]; intros lo [|y l] E Hl Hi; try discriminate E; cbn [seq heu_scan existsb]; auto.
    rewrite <- (Nat.add_0_r lo) at 1. rewrite (Hi 0) by lia. cbn [rbind nth].
    assert (IH' : heu_scan g mc x (seq (S lo) k) = Val (existsb (Nat.eqb x) l && strong mc x)).
    { apply IH; auto.
      - simpl in Hl; auto.
      - intros i Hik. rewrite Nat.add_succ_comm. apply (Hi (S i)). lia. }
    destruct (Nat.eqb_spec x y) as [<-|Hne]; cbn [orb]; [|exact IH'].
    rewrite (get_degree_ok R) by auto. cbn [rbind]. fold (strong mc x).
    rewrite IH'. destruct (strong mc x); auto. rewrite andb_false_r. auto. }
  rewrite (G (dg v) (offs nb v) (nb v)); auto.
  - f_equal. unfold keep. f_equal. apply eq_true_iff_eq. rewrite existsb_exists. split.
    + intros (y & Hy & E). apply Nat.eqb_eq in E. subst y. apply (nb_In R) in Hy. tauto.
    + intro Ha. exists x. split; [apply (nb_In R); auto|apply Nat.eqb_refl].
  - intros y Hy. apply (nb_In R) in Hy. tauto.
Qed.

Lemma heu_collect_ok mc arr ipos v arr1 : v < n -> ipos <= length arr -> ipos <= length arr1 ->
  (forall x, In x (firstn ipos arr) -> x < n) ->
  exists arr1', heu_collect g mc arr ipos v arr1 = Val (arr1', length (filter (keep mc v) (firstn ipos arr))) /\
    length arr1' = length arr1 /\
    firstn (length (filter (keep mc v) (firstn ipos arr))) arr1' = filter (keep mc v) (firstn ipos arr).
Proof.
  intros Hv HL HL1 Hr. unfold heu_collect, rfor. rewrite Nat.sub_0_r.
  destruct (r_off R Hv) as (E1 & E2 & _).
  rewrite rfold_ext_in with (f' := fun j a => let* x := vget arr j in
    (fun x '(vS1, ipos1) => let* b := heu_scan g mc x (seq (offs nb v) (offs nb v + dg v - offs nb v)) in
      if b then let* vS1' := vset vS1 ipos1 x in Val (vS1', ipos1 + 1) else Val (vS1, ipos1)) x a).
  2:{ intros j [vS1 ipos1] _. rewrite E2, E1. cbn [rbind]. reflexivity. }
  rewrite array_loop by auto.
  rewrite rfold_ext_in with (f' := fun e '(arr, p) =>
    if keep mc v e then let* arr' := vset arr p e in Val (arr', p + 1) else Val (arr, p)).
  2:{ intros e [vS ip] He. rewrite heu_scan_ok by auto. reflexivity. }
  destruct (push_loop (keep mc v) (firstn ipos arr) arr1 0) as (arr' & E & L & F1 & _).
  { pose proof (filter_length_le (keep mc v) (firstn ipos arr)). rewrite firstn_length in H. lia. }
  exists arr'. split; [exact E|]. split; auto.
Qed.

Lemma heu_copy_ok arr arr1 k : k <= length arr -> k <= length arr1 ->
  heu_copy arr arr1 k = Val (firstn k arr1 ++ skipn k arr).
Proof.
  intros H H1. unfold heu_copy, rfor. rewrite Nat.sub_0_r.
  induction k as [|k IH]; auto.
  rewrite seq_S, rfold_app, IH by lia. cbn [rbind rfold plus].
  destruct (nth_error arr1 k) as [x|] eqn:E; [|apply nth_error_None in E; lia].
  unfold vget at 1. rewrite E. cbn [rbind].
  assert (HL : length (firstn k arr1) = k) by (rewrite firstn_length; lia).
  rewrite vset_ok by (rewrite app_length, HL, skipn_length; lia). cbn [rbind]. f_equal.
  rewrite (firstn_snoc _ _ E), <- app_assoc. cbn [app].
  destruct (skipn k arr) as [|y t] eqn:Es.
  { pose proof (skipn_length k arr) as HH. rewrite Es in HH. simpl in HH. lia. }
  assert (Et : skipn (S k) arr = t).
  { clear - Es. revert arr Es. induction k as [|k IH]; intros [|a arr] Es; simpl in *; try congruence.
    apply IH; auto. }
  rewrite Et. clear - HL. revert HL. generalize (firstn k arr1) as l. intro l. revert k.
  induction l as [|a l IH]; intros k HL; simpl in HL; subst k; simpl; auto.
  f_equal. apply IH; auto.
Qed.

(** ** The picking loop *)

Definition complete_list (l : list nat) : Prop :=
  forall x y, In x l -> In y l -> x <> y -> adj x y = true.

Lemma keep_In mc v x : keep mc v x = true <-> adj v x = true /\ strong mc x = true.
Proof. unfold keep. rewrite andb_true_iff. tauto. Qed.

Lemma heu_while_ok mc : forall fuel arr arr1 ipos icc,
  ipos <= length arr -> length arr <= length arr1 -> ipos <= fuel ->
  NoDup (firstn ipos arr) -> (forall x, In x (firstn ipos arr) -> x < n) ->
  exists arr' arr1' picks,
    heu_while fuel g mc arr arr1 ipos icc = Val (arr', arr1', icc + length picks) /\
    length arr' = length arr /\ length arr1' = length arr1 /\
    clq picks /\ incl picks (firstn ipos arr) /\
    skipn ipos arr' = skipn ipos arr /\
    incl (firstn ipos arr') (firstn ipos arr) /\
    (forall c l, firstn ipos arr = c :: l -> (forall x, In x l -> adj x c = true) -> strong mc c = true ->
       In c picks /\ exists l', firstn ipos arr' = c :: l' /\ incl l' l) /\
    (complete_list (firstn ipos arr) -> (forall x, In x (firstn ipos arr) -> strong mc x = true) ->
       arr' = arr /\ length picks = ipos).
Proof.
  induction fuel as [|fuel IH]; intros arr arr1 ipos icc HL HL1 Hf HN Hr.
  { assert (ipos = 0) by lia. subst ipos. cbn [heu_while firstn]. exists arr, arr1, [].
    cbn [length]. rewrite Nat.add_0_r. repeat split; auto; try apply clq_nil; try discriminate.
    - intros x [].
    - intros x []. }
  destruct ipos as [|ip].
  { cbn [heu_while firstn]. exists arr, arr1, [].
    cbn [length]. rewrite Nat.add_0_r. repeat split; auto; try apply clq_nil; try discriminate.
    - intros x [].
    - intros x []. }
  cbn [heu_while]. replace (S ip - 1) with ip by lia.
  destruct (nth_error arr ip) as [v|] eqn:Ev; [|apply nth_error_None in Ev; lia].
  unfold vget at 1. rewrite Ev. cbn [rbind].
  pose proof (firstn_snoc _ _ Ev) as Epre.
  assert (Hv : In v (firstn (S ip) arr)) by (rewrite Epre, in_app_iff; simpl; auto).
  destruct (@heu_collect_ok mc arr (S ip) v arr1) as (arr1' & E1 & L1 & F1); auto; try lia.
  rewrite E1. cbn [rbind].
  set (F := filter (keep mc v) (firstn (S ip) arr)) in *.
  assert (HvF : keep mc v v = false) by (unfold keep; rewrite (r_irr R); auto).
  assert (EF : F = filter (keep mc v) (firstn ip arr)).
  { unfold F. rewrite Epre, filter_app. cbn [filter]. rewrite HvF, app_nil_r. reflexivity. }
  assert (HFlen : length F <= ip).
  { rewrite EF. pose proof (filter_length_le (keep mc v) (firstn ip arr)). rewrite firstn_length in H. lia. }
  rewrite heu_copy_ok by lia. cbn [rbind]. rewrite F1.
  set (arr2 := F ++ skipn (length F) arr).
  assert (L2 : length arr2 = length arr) by (unfold arr2; rewrite app_length, skipn_length; lia).
  assert (P2 : firstn (length F) arr2 = F).
  { unfold arr2. rewrite firstn_app, Nat.sub_diag, firstn_all. cbn [firstn]. apply app_nil_r. }
  assert (S2 : skipn (length F) arr2 = skipn (length F) arr).
  { unfold arr2. rewrite skipn_app, Nat.sub_diag, skipn_all. reflexivity. }
  assert (HFin : forall x, In x F <-> In x (firstn (S ip) arr) /\ adj v x = true /\ strong mc x = true).
  { intro x. unfold F. rewrite filter_In, keep_In. tauto. }
  destruct (IH arr2 arr1' (length F) (icc + 1)) as
    (arr' & arr1'' & picks & E & La & La1 & HC & HI & HS & HP & Hhd & Hcomp); try lia.
  { rewrite P2. apply NoDup_filter; auto. }
  { rewrite P2. intros x Hx. apply HFin in Hx. apply Hr. tauto. }
  rewrite P2 in *.
  exists arr', arr1'', (v :: picks). cbn [length].
  assert (Hskip : forall k, length F <= k -> skipn k arr' = skipn k arr).
  { intros k Hk. replace k with (length F + (k - length F)) by lia.
    clear - HS S2 Hk. rewrite S2 in HS.
    assert (G : forall A a b (l : list A), skipn (a + b) l = skipn b (skipn a l)).
    { induction a as [|a IHa]; intros b [|x l]; simpl; auto. destruct b; auto. }
    rewrite !G, HS. reflexivity. }
  assert (Hfirst : firstn (S ip) arr' = firstn (length F) arr' ++ firstn (S ip - length F) (skipn (length F) arr)).
  { replace (S ip) with (length F + (S ip - length F)) at 1 by lia.
    rewrite firstn_plus, Hskip by lia. reflexivity. }
  split; [rewrite E, <- Nat.add_assoc; reflexivity|].
  split; [lia|]. split; [lia|]. split.
  { apply (clq_app R (P := picks) (Q := [v])); auto.
    - split; [|split].
      + constructor; [intros []|constructor].
      + intros x [<-|[]]. auto.
      + intros x y [<-|[]] [<-|[]] C. elim C; auto.
    - intros x p [<-|[]] Hp. apply HI in Hp. apply HFin in Hp. destruct Hp as (_ & Ha & _).
      split; auto. intros ->. rewrite (r_irr R) in Ha. discriminate. }
  split.
  { intros x [<-|Hx]; auto. apply HI in Hx. apply HFin in Hx. tauto. }
  split; [apply Hskip; lia|]. split.
  { intros x Hx. rewrite Hfirst, in_app_iff in Hx. destruct Hx as [Hx|Hx].
    - apply HP in Hx. apply HFin in Hx. tauto.
    - replace (S ip) with (length F + (S ip - length F)) by lia.
      rewrite firstn_plus, in_app_iff. auto. }
  split.
  - intros c l Epre' Hadj Hstr.
    destruct (Nat.eq_dec ip 0) as [->|Hip].
    + (* only [c] left *)
      assert (v = c /\ l = []) as [-> ->].
      { rewrite Epre in Epre'. simpl in Epre'. inversion Epre'; auto. }
      split; [left; auto|].
      assert (length F = 0) by lia.
      rewrite Hfirst, H. cbn [firstn app]. rewrite Nat.sub_0_r. cbn [skipn]. rewrite Epre'. exists []. split; auto. intros x [].
    + assert (Hvl : In v l).
      { destruct ip as [|ip']; [lia|]. destruct arr as [|a arr]; [discriminate|].
        simpl in Epre'. inversion Epre'; subst.
        simpl in Ev. change (match arr with [] => [] | a :: l => a :: firstn ip' l end) with (firstn (S ip') arr).
        rewrite (firstn_snoc _ _ Ev), in_app_iff. simpl; auto. }
      assert (Hvc : keep mc v c = true) by (apply keep_In; auto).
      assert (EF' : F = c :: filter (keep mc v) l).
      { unfold F. rewrite Epre'. cbn [filter]. rewrite Hvc. reflexivity. }
      destruct (Hhd c _ EF') as (Hin & l' & El' & Hl'); auto.
      { intros x Hx. apply filter_In in Hx. apply Hadj. tauto. }
      split; [right; auto|].
      rewrite Hfirst, El'. cbn [app]. eexists. split; [reflexivity|].
      intros x Hx. apply in_app_iff in Hx. destruct Hx as [Hx|Hx].
      { apply Hl' in Hx. apply filter_In in Hx. tauto. }
      assert (Hsuf : firstn (length F) arr ++ firstn (S ip - length F) (skipn (length F) arr) = c :: l).
      { rewrite <- firstn_plus, <- Epre'. f_equal. lia. }
      destruct (firstn (length F) arr) as [|a t] eqn:Et.
      { exfalso. assert (HH : length (firstn (length F) arr) = 0) by (rewrite Et; auto).
        rewrite firstn_length, EF' in HH. cbn [length] in HH. lia. }
      inversion Hsuf; subst. apply in_app_iff; auto.
  - intros Hcl Hstr.
    assert (EF2 : F = firstn ip arr).
    { rewrite EF. apply filter_all. intros x Hx.
      apply keep_In. assert (Hxin : In x (firstn (S ip) arr)) by (rewrite Epre, in_app_iff; auto).
      split; auto. apply Hcl; auto. intros <-.
      rewrite Epre in HN. apply NoDup_remove_2 in HN. rewrite app_nil_r in HN. contradiction. }
    assert (HlF : length F = ip) by (rewrite EF2, firstn_length; lia).
    assert (Earr : arr2 = arr).
    { unfold arr2. rewrite HlF, EF2. apply firstn_skipn. }
    rewrite Earr in *. destruct Hcomp as (Ha & Hp).
    + intros x y Hx Hy. apply HFin in Hx, Hy. apply Hcl; tauto.
    + intros x Hx. apply HFin in Hx. tauto.
    + split; auto. lia.
Qed.

(** ** One candidate *)

(** The prefix delivered to the caller: the candidate, then neighbours of it. *)
Definition star (k : nat) (data : list nat) : Prop :=
  k <= length data /\
  exists c l, firstn k data = c :: l /\ c < n /\ forall x, In x l -> x < n /\ adj c x = true.

Lemma heu_step_ok c vS vS1 mc data : c < n ->
  (forall v, v < n -> 1 + dg v <= length vS) -> length vS <= length vS1 ->
  exists vS' vS1' mc' data',
    heu_step g c (vS, vS1, mc, data) = Val (vS', vS1', mc', data') /\
    length vS' = length vS /\ length vS1' = length vS1 /\
    ((mc' = mc /\ data' = data) \/
     (exists picks, (mc < mc')%Z /\ mc' = Z.of_nat (length picks) /\ clq picks /\ In c picks /\
        data' = vS' /\ star (length picks) data' /\ hd_error data' = Some c)) /\
    ((mc < 1)%Z -> (1 <= mc')%Z) /\
    ((forall x y z, adj x y = true -> adj y z = true -> x <> z -> adj x z = true) ->
      if (mc <=? Z.of_nat (dg c))%Z
      then mc' = Z.of_nat (S (dg c)) /\ firstn (S (dg c)) data' = c :: nb c
      else mc' = mc).
Proof.
  intros Hc HL HL1. unfold heu_step. rewrite (get_degree_ok R) by auto. cbn [rbind].
  rewrite Z.ltb_antisym. fold (strong mc c). destruct (strong mc c) eqn:Es; cbn [negb].
  2:{ exists vS, vS1, mc, data. unfold strong in Es. apply Z.leb_gt in Es.
      repeat split; auto. lia. }
  destruct (@heu_fill_ok mc c vS Hc (HL c Hc)) as (arr & E & La & F1 & F2).
  rewrite E. cbn [rbind].
  set (F := filter (strong mc) (nb c)) in *.
  assert (HF : forall x, In x F <-> x < n /\ adj c x = true /\ strong mc x = true).
  { intro x. unfold F. rewrite filter_In, (nb_In R). tauto. }
  assert (HlF : length F <= dg c) by apply filter_length_le.
  assert (Hlen : 1 + length F <= length arr) by (specialize (HL c Hc); lia).
  destruct (@heu_while_ok mc (length arr) arr vS1 (1 + length F) 0) as
    (arr' & arr1' & picks & E' & La' & La1 & HC & HI & HS & HP & Hhd & Hcomp); auto; try lia.
  { rewrite F1. constructor.
    - intro Hin. apply HF in Hin. destruct Hin as (_ & Ha & _). rewrite (r_irr R) in Ha. discriminate.
    - apply NoDup_filter, (nb_NoDup R). }
  { rewrite F1. intros x [<-|Hx]; auto. apply HF in Hx. tauto. }
  rewrite E'. cbn [rbind]. cbn [plus]. rewrite F1 in *.
  destruct (Hhd c F) as (Hcp & l' & El' & Hl'); auto.
  { intros x Hx. apply HF in Hx. rewrite (r_sym R). tauto. }
  assert (Hpl : length picks <= 1 + length F).
  { destruct HC as (HN & _). pose proof (NoDup_incl_length HN HI). cbn [length] in H. lia. }
  assert (Hpos : 1 <= length picks) by (destruct picks; [destruct Hcp|simpl; lia]).
  assert (Hstar : star (length picks) arr').
  { split; [lia|].
    assert (Esub : firstn (length picks) arr' = firstn (length picks) (c :: l')).
    { rewrite <- El', firstn_firstn. f_equal. lia. }
    destruct (length picks) as [|k] eqn:Ek; [lia|]. cbn [firstn] in Esub.
    exists c, (firstn k l'). split; [exact Esub|]. split; auto.
    intros x Hx.
    assert (Hxl : In x l') by (rewrite <- (firstn_skipn k l'); apply in_app_iff; auto).
    apply Hl' in Hxl. apply HF in Hxl. tauto. }
  assert (Hhd1 : hd_error arr' = Some c).
  { destruct arr'; [discriminate|]. simpl in El'. inversion El'. auto. }
  assert (Htr : (forall x y z, adj x y = true -> adj y z = true -> x <> z -> adj x z = true) ->
     arr' = arr /\ length picks = S (dg c) /\ F = nb c).
  { intro Ht.
    assert (Hdeg : forall x, adj c x = true -> x < n -> dg x = dg c).
    { intros x Hx Hxn. unfold deg.
      assert (Hcx : adj x c = true) by (rewrite (r_sym R); auto).
      assert (Hle : forall a b, a < n -> b < n -> adj a b = true -> adj b a = true ->
         length (a :: nb a) <= length (b :: nb b)).
      { intros a b Han Hbn Hab Hba. apply NoDup_incl_length.
        - constructor; [|apply (nb_NoDup R)]. rewrite (nb_In R), (r_irr R). intros [_ ?]; discriminate.
        - intros y [<-|Hy].
          + right. apply (nb_In R). auto.
          + apply (nb_In R) in Hy. destruct (Nat.eq_dec b y) as [->|Hne]; [left; auto|].
            right. apply (nb_In R). split; [tauto|]. apply Ht with a; tauto. }
      pose proof (Hle c x Hc Hxn Hx Hcx). pose proof (Hle x c Hxn Hc Hcx Hx).
      cbn [length] in *. lia. }
    assert (EF : F = nb c).
    { apply filter_all. intros x Hx. apply (nb_In R) in Hx.
      unfold strong in *. rewrite Hdeg by tauto. auto. }
    destruct Hcomp as (-> & Hp).
    - intros x y Hx Hy Hxy. destruct Hx as [<-|Hx], Hy as [<-|Hy].
      + elim Hxy; auto.
      + apply HF in Hy. tauto.
      + apply HF in Hx. rewrite (r_sym R). tauto.
      + apply HF in Hx, Hy. apply Ht with c; try tauto. rewrite (r_sym R). tauto.
    - intros x [<-|Hx]; auto. apply HF in Hx. tauto.
    - split; auto. split; auto. rewrite Hp, EF. reflexivity. }
  destruct (Z.ltb_spec mc (Z.of_nat (length picks))) as [Hlt|Hge].
  - eexists _, _, _, _. split; [reflexivity|]. split; [lia|]. split; [lia|]. split.
    + right. exists picks. repeat (split; auto).
    + split; [lia|]. intro Ht. destruct (Htr Ht) as (-> & -> & EF). split; auto.
      replace (S (dg c)) with (1 + length F) by (rewrite EF; reflexivity).
      rewrite F1, EF. reflexivity.
  - eexists _, _, _, _. split; [reflexivity|]. split; [lia|]. split; [lia|]. split; auto. split; [lia|].
    intro Ht. destruct (Htr Ht) as (_ & Hp & _). unfold strong in Es.
    apply Z.leb_le in Es. lia.
Qed.

(** ** All candidates *)

(** [cs] is the list of candidates already processed, [b0] the initial best. *)
Definition heu_inv (b0 : Z) (d0 : list nat) (cs : list nat) (mc : Z) (data : list nat) : Prop :=
  ((mc = b0 /\ data = d0) \/
   (exists picks c, (b0 < mc)%Z /\ mc = Z.of_nat (length picks) /\ clq picks /\ In c picks /\ In c cs /\
      star (length picks) data /\ hd_error data = Some c)) /\
  (forall c, In c cs -> (b0 < 1)%Z -> (1 <= mc)%Z) /\
  ((forall x y z, adj x y = true -> adj y z = true -> x <> z -> adj x z = true) ->
    (forall c, In c cs -> (Z.of_nat (dg c) < mc)%Z) /\
    ((mc = b0 /\ data = d0) \/
     exists c, In c cs /\ mc = Z.of_nat (S (dg c)) /\ firstn (S (dg c)) data = c :: nb c)).

Lemma heu_all_ok b0 d0 : forall cs done vS vS1 mc data,
  (forall c, In c cs -> c < n) ->
  (forall v, v < n -> 1 + dg v <= length vS) -> length vS <= length vS1 ->
  heu_inv b0 d0 done mc data ->
  exists vS' vS1' mc' data',
    rfold (heu_step g) cs (vS, vS1, mc, data) = Val (vS', vS1', mc', data') /\
    heu_inv b0 d0 (done ++ cs) mc' data'.
Proof.
  induction cs as [|c cs IH]; intros done vS vS1 mc data Hcs HL HL1 HI; cbn [rfold].
  - eexists _, _, _, _. split; [reflexivity|]. rewrite app_nil_r. auto.
  - destruct (@heu_step_ok c vS vS1 mc data) as (vS' & vS1' & mc' & data' & E & L & L1 & Hs & Hp1 & Ht); auto.
    { apply Hcs. left; auto. }
    rewrite E. cbn [rbind].
    replace (done ++ c :: cs) with ((done ++ [c]) ++ cs) by (rewrite <- app_assoc; auto).
    apply IH; try lia.
    { intros; apply Hcs; right; auto. }
    { intros v Hv. rewrite L. auto. }
    destruct HI as (H1 & H1b & H2).
    assert (Hb0 : (b0 <= mc)%Z).
    { destruct H1 as [[-> _]|(p & c0 & Hlt & _)]; lia. }
    split; [|split].
    + destruct Hs as [[-> ->]|(picks & Hlt & Hmc & HC & Hin & -> & Hst & Hh)].
      * destruct H1 as [H1|(p & c0 & Hlt & Hp & HC & Hin & Hc0 & Hst)]; auto.
        right. exists p, c0. repeat (split; auto). apply in_app_iff; auto.
      * right. exists picks, c. repeat (split; auto); try lia. apply in_app_iff; simpl; auto.
    + intros x Hx Hb. destruct (Z_lt_le_dec mc 1) as [Hlt|Hge]; [auto|].
      destruct Hs as [[-> _]|(p & Hlt & _)]; lia.
    + intro Htr. specialize (H2 Htr). specialize (Ht Htr). destruct H2 as (Hmax & Hdat).
      destruct (Z.leb_spec mc (Z.of_nat (dg c))) as [Hle|Hgt].
      * destruct Ht as (-> & Hd). split.
        -- intros x Hx. apply in_app_iff in Hx. destruct Hx as [Hx|[<-|[]]]; [|lia].
           specialize (Hmax x Hx). lia.
        -- right. exists c. split; [apply in_app_iff; simpl; auto|]. auto.
      * subst mc'. split.
        -- intros x Hx. apply in_app_iff in Hx. destruct Hx as [Hx|[<-|[]]]; auto.
        -- destruct Hs as [[_ ->]|(p & Hlt & _)]; [|lia].
           destruct Hdat as [?|(c0 & Hc0 & Hd)]; auto.
           right. exists c0. split; auto. apply in_app_iff; auto.
Qed.

Lemma buf_len : (forall v, v < n -> 1 + dg v <= length (repeat 0 (Z.to_nat (g_maxdeg g + 1)))).
Proof.
  intros v Hv. rewrite repeat_length. pose proof (r_max R Hv). lia.
Qed.

Theorem max_clique_heu_ok :
  exists mc data, max_clique_heu g [] = Val (mc, data) /\ heu_inv (-1) [] (seq 0 n) mc data.
Proof.
  unfold max_clique_heu. rewrite (r_len R). replace (n + 1 - 1) with n by lia.
  set (buf := repeat 0 (Z.to_nat (g_maxdeg g + 1))).
  destruct (@heu_all_ok (-1) [] (seq 0 n) [] buf buf (-1) []) as (a & b & mc & data & E & HI); auto.
  - intros c Hc. apply in_seq in Hc. lia.
  - apply buf_len.
  - split; [left; auto|split].
    + intros c [].
    + intros _. split; [intros c []|left; auto].
  - rewrite E. cbn [rbind]. exists mc, data. split; auto.
Qed.

(** Rows visited by the incremental search. *)
Lemma heu_start_ok num_new : (Z.of_nat n < size_t_mod)%Z -> num_new <= n ->
  heu_start (n + 1) num_new = Z.of_nat (n - num_new).
Proof.
  intros Hn Hk. unfold heu_start. rewrite Z.mod_small; [lia|]. lia.
Qed.

Lemma heu_start_wrap num_new : (Z.of_nat num_new < size_t_mod)%Z -> n < num_new ->
  (Z.of_nat n <= heu_start (n + 1) num_new)%Z.
Proof.
  intros Hn Hk. unfold heu_start.
  replace (Z.of_nat (n + 1) - Z.of_nat num_new - 1)%Z with
    ((Z.of_nat n - Z.of_nat num_new + size_t_mod) + (-1) * size_t_mod)%Z by lia.
  rewrite Z_mod_plus_full, Z.mod_small; lia.
Qed.

Theorem max_clique_heu_inc_ok num_new prev :
  (Z.of_nat n < size_t_mod)%Z -> num_new <= n ->
  exists mc data, max_clique_heu_inc g num_new prev [] = Val (mc, data) /\
    heu_inv (Z.of_nat prev) [] (seq (n - num_new) num_new) mc data.
Proof.
  intros Hn Hk. unfold max_clique_heu_inc. rewrite (r_len R), heu_start_ok by auto.
  replace (n + 1 - 1) with n by lia. rewrite Nat2Z.id.
  replace (n - (n - num_new)) with num_new by lia.
  set (buf := repeat 0 (Z.to_nat (g_maxdeg g + 1))).
  replace (if (Z.of_nat (n - num_new) <? Z.of_nat n)%Z then seq (n - num_new) num_new else [])
    with (seq (n - num_new) num_new).
  2:{ destruct (Z.ltb_spec (Z.of_nat (n - num_new)) (Z.of_nat n)); auto.
      assert (num_new = 0) by lia. subst. reflexivity. }
  destruct (@heu_all_ok (Z.of_nat prev) [] (seq (n - num_new) num_new) [] buf buf (Z.of_nat prev) [])
    as (a & b & mc & data & E & HI); auto.
  - intros c Hc. apply in_seq in Hc. lia.
  - apply buf_len.
  - split; [left; auto|split].
    + intros c [].
    + intros _. split; [intros c []|left; auto].
  - rewrite E. cbn [rbind]. exists mc, data. split; auto.
Qed.

Theorem max_clique_heu_inc_wrap num_new prev :
  (Z.of_nat num_new < size_t_mod)%Z -> n < num_new ->
  max_clique_heu_inc g num_new prev [] = Val (Z.of_nat prev, []).
Proof.
  intros Hn Hk. unfold max_clique_heu_inc. rewrite (r_len R).
  replace (n + 1 - 1) with n by lia.
  pose proof (heu_start_wrap Hn Hk) as H.
  destruct (Z.ltb_spec (heu_start (n + 1) num_new) (Z.of_nat n)); [lia|]. reflexivity.
Qed.

End Graph.

Lemma trans_adjb m : transitive_graph m ->
  forall x y z, adjb m x y = true -> adjb m y z = true -> x <> z -> adjb m x z = true.
Proof.
  intros H x y z H1 H2 H3. apply adjb_edge. apply H with y; auto; apply adjb_edge; auto.
Qed.

Lemma star_star m k data : star (m_rows m) (adjb m) k data -> star_prefix m k data.
Proof.
  intros (H & c & l & E & Hc & Hl). split; auto. exists c, l. repeat split; auto;
    apply Hl in H0; destruct H0 as [Hx Ha]; apply adjb_edge in Ha; apply Ha.
Qed.

Theorem find_heu_ok m :
  (m_rows m = 0 /\ find_max_clique_heu m = Val ((-1)%Z, [])) \/
  exists picks data, find_max_clique_heu m = Val (Z.of_nat (length picks), data) /\
     picks <> [] /\ is_clique m picks /\ star_prefix m (length picks) data.
Proof.
  unfold find_max_clique_heu. destruct (read_eigen_repr m) as (g & E & R).
  rewrite E. cbn [rbind].
  destruct (max_clique_heu_ok R) as (mc & data & E' & H1 & H2 & _).
  destruct H1 as [[-> ->]|(picks & c & Hlt & -> & HC & Hc & _ & Hst & _)].
  - left. split; auto. destruct (m_rows m) as [|r]; auto.
    assert (1 <= -1)%Z; [|lia]. apply H2 with 0; [|lia]. apply in_seq. lia.
  - right. exists picks, data. split; auto. split; [intros ->; destruct Hc|].
    split; [apply clq_is_clique; auto|apply star_star; auto].
Qed.

Theorem find_heu_trans m : transitive_graph m -> 0 < m_rows m ->
  exists c data, find_max_clique_heu m = Val (Z.of_nat (S (length (read_nodelist m c))), data) /\
     c < m_rows m /\
     firstn (S (length (read_nodelist m c))) data = c :: read_nodelist m c /\
     (forall c', c' < m_rows m -> length (read_nodelist m c') <= length (read_nodelist m c)).
Proof.
  intros Ht Hr. unfold find_max_clique_heu. destruct (read_eigen_repr m) as (g & E & R).
  rewrite E. cbn [rbind].
  destruct (max_clique_heu_ok R) as (mc & data & E' & H1 & H2 & H3).
  destruct (H3 (trans_adjb Ht)) as (Hmax & [[-> ->]|(c & Hc & -> & Hd)]).
  - exfalso. assert (1 <= -1)%Z; [|lia]. apply H2 with 0; [|lia]. apply in_seq. lia.
  - exists c, data. unfold deg in *. apply in_seq in Hc.
    split; [exact E'|]. split; [lia|]. split; auto.
    intros c' Hc'. assert (In c' (seq 0 (m_rows m))) by (apply in_seq; lia).
    specialize (Hmax c' H). lia.
Qed.

Theorem find_inc_ok m num_new prev :
  (Z.of_nat (m_rows m) < size_t_mod)%Z -> num_new <= m_rows m ->
  (exists data, find_max_clique_heu_inc m num_new prev = Val (0%Z, data)) \/
  exists picks data c, find_max_clique_heu_inc m num_new prev = Val (Z.of_nat (length picks), data) /\
     prev < length picks /\ is_clique m picks /\ In c picks /\ m_rows m - num_new <= c /\
     star_prefix m (length picks) data /\ hd_error data = Some c.
Proof.
  intros Hn Hk. unfold find_max_clique_heu_inc. destruct (read_eigen_repr m) as (g & E & R).
  rewrite E. cbn [rbind].
  destruct (max_clique_heu_inc_ok R prev Hn Hk) as (mc & data & E' & H1 & _).
  rewrite E'. cbn [rbind].
  destruct H1 as [[-> ->]|(picks & c & Hlt & -> & HC & Hc & Hcs & Hst & Hh)].
  - left. rewrite Z.ltb_irrefl. eauto.
  - right. exists picks, data, c. apply Z.ltb_lt in Hlt. rewrite Hlt. apply Z.ltb_lt in Hlt.
    apply in_seq in Hcs. split; auto. split; [lia|]. split; [apply clq_is_clique; auto|].
    split; auto. split; [lia|]. split; [apply star_star; auto|auto].
Qed.

Theorem find_inc_trans m num_new prev : transitive_graph m ->
  (Z.of_nat (m_rows m) < size_t_mod)%Z -> num_new <= m_rows m ->
  (exists data, find_max_clique_heu_inc m num_new prev = Val (0%Z, data) /\
     forall c, m_rows m - num_new <= c < m_rows m -> S (length (read_nodelist m c)) <= prev) \/
  (exists c data, find_max_clique_heu_inc m num_new prev = Val (Z.of_nat (S (length (read_nodelist m c))), data) /\
     m_rows m - num_new <= c < m_rows m /\ prev <= length (read_nodelist m c) /\
     firstn (S (length (read_nodelist m c))) data = c :: read_nodelist m c /\
     forall c', m_rows m - num_new <= c' < m_rows m ->
       length (read_nodelist m c') <= length (read_nodelist m c)).
Proof.
  intros Ht Hn Hk. unfold find_max_clique_heu_inc. destruct (read_eigen_repr m) as (g & E & R).
  rewrite E. cbn [rbind].
  destruct (max_clique_heu_inc_ok R prev Hn Hk) as (mc & data & E' & H1 & _ & H3).
  rewrite E'. cbn [rbind]. destruct (H3 (trans_adjb Ht)) as (Hmax & Hd).
  assert (Hin : forall c, m_rows m - num_new <= c < m_rows m -> In c (seq (m_rows m - num_new) num_new))
    by (intros; apply in_seq; lia).
  unfold deg in *.
  destruct (Z.ltb_spec (Z.of_nat prev) mc) as [Hlt|Hge].
  - right. destruct Hd as [[-> _]|(c & Hc & -> & Hd)]; [lia|].
    exists c, data. apply in_seq in Hc. split; auto. split; [lia|]. split; [lia|]. split; auto.
    intros c' Hc'. specialize (Hmax c' (Hin c' Hc')). lia.
  - left. exists data. split; auto. intros c Hc. specialize (Hmax c (Hin c Hc)). lia.
Qed.

Theorem find_inc_wrap m num_new prev :
  (Z.of_nat num_new < size_t_mod)%Z -> m_rows m < num_new ->
  find_max_clique_heu_inc m num_new prev = Val (0%Z, []).
Proof.
  intros Hn Hk. unfold find_max_clique_heu_inc. destruct (read_eigen_repr m) as (g & E & R).
  rewrite E. cbn [rbind]. rewrite (max_clique_heu_inc_wrap R prev Hn Hk). cbn [rbind].
  rewrite Z.ltb_irrefl. reflexivity.
Qed.

(** ** Group-level consequences, in specification vocabulary *)

Lemma group_clique m c : transitive_graph m -> c < m_rows m ->
  is_clique m (c :: read_nodelist m c) /\
  forall y, In y (c :: read_nodelist m c) <-> same_group m c y.
Proof.
  intros Ht Hc. destruct (read_eigen_repr m) as (g & _ & R).
  assert (HI : forall y, In y (read_nodelist m c) <-> edge m c y).
  { intro y. rewrite (nb_In R), adjb_edge. split; [tauto|]. intro H. split; auto. apply H. }
  split.
  - split; [|split].
    + constructor; [|apply (nb_NoDup R)]. rewrite HI. apply edge_irr.
    + intros x [<-|Hx]; auto. apply HI in Hx. apply Hx.
    + intros x y Hx Hy Hxy. destruct Hx as [<-|Hx], Hy as [<-|Hy]; try (apply HI in Hx); try (apply HI in Hy).
      * elim Hxy; auto.
      * auto.
      * apply edge_sym; auto.
      * apply Ht with c; auto. apply edge_sym; auto.
  - intro y. unfold same_group. cbn [In]. rewrite HI. tauto.
Qed.

Lemma clique_le_group m l x : is_clique m l -> In x l -> length l <= S (length (read_nodelist m x)).
Proof.
  intros H Hx. apply clq_is_clique in H.
  destruct (read_eigen_repr m) as (g & _ & R). exact (clq_deg R _ H Hx).
Qed.

Theorem find_heu_trans_spec m : transitive_graph m -> 0 < m_rows m ->
  exists l rest c, find_max_clique_heu m = Val (Z.of_nat (length l), l ++ rest) /\
    is_max_clique m l /\ forall y, In y l <-> same_group m c y.
Proof.
  intros Ht Hr. destruct (find_heu_trans Ht Hr) as (c & data & E & Hc & Hd & Hmax).
  destruct (group_clique Ht Hc) as (HC & HG).
  exists (c :: read_nodelist m c), (skipn (S (length (read_nodelist m c))) data), c.
  split; [|split; auto].
  - rewrite E. cbn [length]. do 2 f_equal. rewrite <- Hd. symmetry. apply firstn_skipn.
  - split; auto. intros l' Hl'. destruct l' as [|x l']; [simpl; lia|].
    assert (Hx : In x (x :: l')) by (left; auto).
    pose proof (clique_le_group _ Hl' Hx) as H1.
    assert (Hxr : x < m_rows m) by (apply Hl'; auto).
    specialize (Hmax x Hxr). cbn [length] in *. lia.
Qed.

Theorem find_heu_complete m : complete_graph m -> 0 < m_rows m ->
  exists l rest, find_max_clique_heu m = Val (Z.of_nat (m_rows m), l ++ rest) /\
    Permutation.Permutation l (seq 0 (m_rows m)).
Proof.
  intros Hc Hr.
  destruct (@find_heu_trans_spec m) as (l & rest & c & E & (HC & Hmax) & HG); auto.
  { intros x y z H1 H2 H3. apply Hc; auto; [apply H1|apply H2]. }
  assert (HP : Permutation.Permutation l (seq 0 (m_rows m))).
  { apply Permutation.NoDup_Permutation_bis.
    - apply HC.
    - apply Hmax. split; [apply seq_NoDup|]. split.
      + intros x Hx. apply in_seq in Hx. lia.
      + intros x y Hx Hy. apply in_seq in Hx, Hy. apply Hc; lia.
    - intros x Hx. apply in_seq. destruct HC as (_ & Hx' & _). specialize (Hx' x Hx). lia. }
  exists l, rest. split; auto. rewrite E. apply Permutation.Permutation_length in HP.
  rewrite seq_length in HP. rewrite HP. reflexivity.
Qed.

Theorem find_heu_small m k data : find_max_clique_heu m = Val (k, data) -> (k <= 2)%Z ->
  is_clique m (firstn (Z.to_nat k) data).
Proof.
  intros E Hk. destruct (find_heu_ok m) as [[H0 E0]|(picks & data' & E' & Hne & HC & HS)].
  - rewrite E0 in E. inversion E; subst. cbn [Z.to_nat firstn].
    apply clq_is_clique. apply clq_nil.
  - rewrite E' in E. inversion E; subst. rewrite Nat2Z.id.
    destruct HS as (HL & c & l & El & Hc & Hl). rewrite El.
    assert (Hlen : length (c :: l) <= 2).
    { rewrite <- El, firstn_length. lia. }
    destruct l as [|x [|y l]]; cbn [length] in Hlen; [| |lia].
    + split; [|split].
      * constructor; [intros []|constructor].
      * intros z [<-|[]]; auto.
      * intros a b [<-|[]] [<-|[]] Hab. elim Hab; auto.
    + assert (Hx : edge m c x) by (apply Hl; left; auto). split; [|split].
      * constructor; [|constructor; [intros []|constructor]].
        intros [<-|[]]. elim (edge_irr Hx).
      * intros z [<-|[<-|[]]]; auto. apply Hx.
      * intros a b [<-|[<-|[]]] [<-|[<-|[]]] Hab; auto; try (elim Hab; reflexivity). apply edge_sym; auto.
Qed.

Theorem find_inc_trans_spec m num_new prev : transitive_graph m ->
  (Z.of_nat (m_rows m) < size_t_mod)%Z -> num_new <= m_rows m ->
  (exists data, find_max_clique_heu_inc m num_new prev = Val (0%Z, data) /\
     forall l c, is_clique m l -> In c l -> m_rows m - num_new <= c -> length l <= prev) \/
  (exists l rest c, find_max_clique_heu_inc m num_new prev = Val (Z.of_nat (length l), l ++ rest) /\
     m_rows m - num_new <= c /\ prev < length l /\ is_clique m l /\
     (forall y, In y l <-> same_group m c y) /\
     forall l' c', is_clique m l' -> In c' l' -> m_rows m - num_new <= c' -> length l' <= length l).
Proof.
  intros Ht Hn Hk. destruct (find_inc_trans prev Ht Hn Hk) as [(data & E & H)|(c & data & E & Hc & Hp & Hd & H)].
  - left. exists data. split; auto. intros l c HC Hin Hge.
    pose proof (clique_le_group _ HC Hin). assert (c < m_rows m) by (apply HC; auto).
    specialize (H c). lia.
  - right. destruct (@group_clique m c Ht) as (HC & HG); [lia|].
    exists (c :: read_nodelist m c), (skipn (S (length (read_nodelist m c))) data), c.
    split.
    { rewrite E. cbn [length]. do 2 f_equal. rewrite <- Hd. symmetry. apply firstn_skipn. }
    split; [lia|]. split; [cbn [length]; lia|]. split; auto. split; auto.
    intros l' c' HC' Hin Hge. pose proof (clique_le_group _ HC' Hin).
    assert (c' < m_rows m) by (apply HC'; auto). specialize (H c'). cbn [length]. lia.
Qed.

Theorem find_heu_le_exact m k data l data' :
  find_max_clique_heu m = Val (k, data) -> find_max_clique m = Val (l, data') -> (k <= Z.of_nat l)%Z.
Proof.
  intros E1 E2. destruct (find_max_clique_exact m) as (lx & Ex & HC & Hmax).
  rewrite Ex in E2. inversion E2; subst.
  destruct (find_heu_ok m) as [[H0 E0]|(picks & d & E' & _ & HCp & _)].
  - rewrite E0 in E1. inversion E1; subst. lia.
  - rewrite E' in E1. inversion E1; subst. specialize (Hmax _ HCp). lia.
Qed.

Theorem find_heu_size m k data : 0 < m_rows m -> find_max_clique_heu m = Val (k, data) ->
  exists picks, is_clique m picks /\ k = Z.of_nat (length picks).
Proof.
  intros Hr E. destruct (find_heu_ok m) as [[H0 _]|(picks & d & E' & _ & HC & _)]; [lia|].
  rewrite E' in E. inversion E; subst. eauto.
Qed.

Theorem find_heu_star m k data : 0 < m_rows m -> find_max_clique_heu m = Val (k, data) ->
  star_prefix m (Z.to_nat k) data.
Proof.
  intros Hr E. destruct (find_heu_ok m) as [[H0 _]|(picks & d & E' & _ & HC & HS)]; [lia|].
  rewrite E' in E. inversion E; subst. rewrite Nat2Z.id. auto.
Qed.

Theorem find_heu_bounds m :
  (m_rows m = 0 -> find_max_clique_heu m = Val ((-1)%Z, [])) /\
  (0 < m_rows m -> exists k data, find_max_clique_heu m = Val (Z.of_nat k, data) /\
     1 <= k <= m_rows m /\ k <= length data /\ forall x, In x (firstn k data) -> x < m_rows m).
Proof.
  destruct (find_heu_ok m) as [[H0 E0]|(picks & d & E' & Hne & HC & HS)].
  - split; [auto|lia].
  - assert (Hp : 1 <= length picks) by (destruct picks; [elim Hne; auto|simpl; lia]).
    assert (Hb : length picks <= m_rows m).
    { destruct HC as (HN & Hx & _). rewrite <- (seq_length (m_rows m) 0).
      apply NoDup_incl_length; auto. intros x Hin. apply in_seq. specialize (Hx x Hin). lia. }
    split; [lia|]. intros _. exists (length picks), d. split; auto. split; [lia|].
    destruct HS as (HL & c & l & El & Hc & Hl). split; auto. rewrite El.
    intros x [<-|Hx]; auto. apply Hl in Hx. apply Hx.
Qed.
