(** * The greedy search on buffers is the greedy search on lists *)
From Verif Require Import Prelude Clique CliqueSpec CliqueRead CliqueExact CliqueHeu HeuSpec.
Set Implicit Arguments.
Local Open Scope nat_scope.

Lemma skip_app A (l l' : list A) k : k <= length l -> skipn k (l ++ l') = skipn k l ++ l'.
Proof. intro H. rewrite skipn_app. replace (k - length l) with 0 by lia. auto. Qed.

Section Graph.
Variables (g : graph) (n : nat) (adj : nat -> nat -> bool) (nb : nat -> list nat).
Hypothesis R : repr g n adj nb.
Hypothesis NB : forall v, nb v = around n adj v.
Notation dg := (deg nb).

(** The bound of the code and the one of the lists. *)
Definition bound (mc : Z) (best : nat) : Prop := mc = Z.of_nat best \/ mc = (-1)%Z /\ best = 0.
Lemma bound_strong mc best x : bound mc best -> strong nb mc x = enough n adj best x.
Proof.
  intro H. unfold strong, enough, deg. rewrite NB. destruct H as [->|[-> ->]].
  - apply eq_true_iff_eq. rewrite Z.leb_le, Nat.leb_le. lia.
  - apply eq_true_iff_eq. rewrite Z.leb_le, Nat.leb_le. lia.
Qed.
Lemma bound_lt mc best k : bound mc best -> 1 <= k -> (mc <? Z.of_nat k)%Z = (best <? k).
Proof. intros [->|[-> ->]] H; apply eq_true_iff_eq; rewrite Z.ltb_lt, Nat.ltb_lt; lia. Qed.

Lemma keep_enough mc best v x : bound mc best -> keep adj nb mc v x = adj v x && enough n adj best x.
Proof. intro H. unfold keep. rewrite (bound_strong _ H). auto. Qed.

Lemma grow_app best tl : forall fuel pool shown, length pool <= length shown ->
  grow n adj fuel best pool (shown ++ tl) = (fst (grow n adj fuel best pool shown) ++ tl, snd (grow n adj fuel best pool shown)).
Proof.
  induction fuel as [|fuel IH]; intros pool shown H; cbn [grow]; auto. destruct pool as [|x pool]; auto.
  set (P := x :: pool) in *. set (P' := filter _ P).
  assert (LE : length P' <= length P) by apply filter_length_le.
  rewrite skip_app, app_assoc, IH by (rewrite ?app_length; lia).
  destruct (grow n adj fuel best P' (P' ++ skipn (length P') shown)) as [s k]. auto.
Qed.
Lemma grow_len best : forall fuel pool shown, length pool <= length shown -> length (fst (grow n adj fuel best pool shown)) = length shown.
Proof.
  induction fuel as [|fuel IH]; intros pool shown H; cbn [grow]; auto. destruct pool as [|x pool]; auto.
  set (P := x :: pool) in *. set (P' := filter _ P).
  assert (LE : length P' <= length P) by apply filter_length_le.
  specialize (IH P' (P' ++ skipn (length P') shown)). rewrite app_length, skipn_length in IH.
  destruct (grow n adj fuel best P' (P' ++ skipn (length P') shown)) as [s k]. cbn [fst] in *. rewrite IH; lia.
Qed.

Lemma drop_self P best v (pool : list nat) x : last (x :: pool) 0 = v -> P = (fun y => adj v y && enough n adj best y) -> length (filter P (x :: pool)) <= length pool.
Proof.
  intros HL ->. assert (E : x :: pool = removelast (x :: pool) ++ [v]) by (rewrite <- HL; apply app_removelast_last; discriminate).
  rewrite E, filter_app. cbn [filter]. rewrite (r_irr R). cbn [andb]. rewrite app_nil_r.
  etransitivity; [apply filter_length_le|]. assert (L : length (removelast (x :: pool)) + 1 = S (length pool)).
  { rewrite <- (app_length _ [v]) at 1. rewrite <- E. auto. }
  lia.
Qed.
Lemma grow_count best : forall fuel pool shown, snd (grow n adj fuel best pool shown) <= length pool.
Proof.
  induction fuel as [|fuel IH]; intros pool shown; cbn [grow]; [cbn; lia|]. destruct pool as [|x pool]; auto.
  set (P' := filter _ (x :: pool)). specialize (IH P' (P' ++ skipn (length P') shown)).
  destruct (grow n adj fuel best P' (P' ++ skipn (length P') shown)) as [s k]. cbn [snd length] in *.
  assert (length P' <= length pool) by (unfold P'; eapply drop_self; reflexivity). lia.
Qed.
Lemma grow_fuel best : forall fuel fuel' pool shown, length pool <= fuel -> length pool <= fuel' -> grow n adj fuel best pool shown = grow n adj fuel' best pool shown.
Proof.
  induction fuel as [|fuel IH]; intros [|fuel'] [|x pool] shown H H'; cbn [length] in *; try lia; cbn [grow]; auto.
  match goal with |- context [filter ?P (x :: pool)] => assert (length (filter P (x :: pool)) <= length pool) by (eapply drop_self; reflexivity) end.
  rewrite (IH fuel') by lia. auto.
Qed.

Lemma while_exact mc best : bound mc best -> forall fuel arr arr1 ipos icc,
  ipos <= length arr -> length arr <= length arr1 -> ipos <= fuel -> (forall x, In x (firstn ipos arr) -> x < n) ->
  exists arr1', length arr1' = length arr1 /\
    heu_while fuel g mc arr arr1 ipos icc =
      Val (fst (grow n adj fuel best (firstn ipos arr) arr), arr1', icc + snd (grow n adj fuel best (firstn ipos arr) arr)).
Proof.
  intro HB. induction fuel as [|fuel IH]; intros arr arr1 ipos icc HL HL1 Hf Hr.
  { assert (ipos = 0) by lia. subst ipos. cbn [heu_while firstn grow fst snd]. rewrite Nat.add_0_r. eauto. }
  destruct ipos as [|ip]; [cbn [heu_while firstn grow fst snd]; rewrite Nat.add_0_r; eauto|].
  cbn [heu_while]. replace (S ip - 1) with ip by lia.
  destruct (nth_error arr ip) as [v|] eqn:Ev; [|apply nth_error_None in Ev; lia].
  unfold vget at 1. rewrite Ev. cbn [rbind]. pose proof (firstn_snoc _ _ Ev) as Epre.
  assert (Hv : In v (firstn (S ip) arr)) by (rewrite Epre, in_app_iff; simpl; auto).
  destruct (@heu_collect_ok _ _ _ _ R mc arr (S ip) v arr1) as (arr1' & E1 & L1 & F1); auto; try lia.
  rewrite E1. cbn [rbind].
  assert (EQ : filter (keep adj nb mc v) (firstn (S ip) arr) = filter (fun x => adj v x && enough n adj best x) (firstn (S ip) arr))
    by (apply filter_ext; intro x; apply keep_enough; auto).
  rewrite EQ in *. set (F := filter (fun x => adj v x && enough n adj best x) (firstn (S ip) arr)) in *.
  assert (LV : last (firstn (S ip) arr) 0 = v) by (rewrite Epre; apply last_last).
  assert (HFl : length F <= ip).
  { unfold F. rewrite Epre, filter_app. cbn [filter]. rewrite (r_irr R). cbn [andb]. rewrite app_nil_r.
    pose proof (filter_length_le (fun x => adj v x && enough n adj best x) (firstn ip arr)) as X. rewrite firstn_length in X. lia. }
  rewrite heu_copy_ok by lia. cbn [rbind]. rewrite F1.
  assert (P2 : firstn (length F) (F ++ skipn (length F) arr) = F) by (rewrite firstn_app, Nat.sub_diag, firstn_all; cbn [firstn]; apply app_nil_r).
  destruct (IH (F ++ skipn (length F) arr) arr1' (length F) (icc + 1)) as (arr1'' & L2 & E2).
  { rewrite app_length. lia. }
  { rewrite app_length, skipn_length. lia. }
  { lia. }
  { rewrite P2. intros x Hx. apply Hr. unfold F in Hx. apply filter_In in Hx. tauto. }
  exists arr1''. split; [lia|]. rewrite E2, P2. cbn [grow]. destruct (firstn (S ip) arr) as [|y l] eqn:EP; [destruct Hv|]. rewrite LV. fold F.
  destruct (grow n adj fuel best F (F ++ skipn (length F) arr)) as [s k]. cbn [fst snd]. f_equal. f_equal. lia.
Qed.

Lemma step_exact c vS vS1 mc best data found : bound mc best -> c < n ->
  (forall v, v < n -> 1 + dg v <= length vS) -> length vS <= length vS1 -> firstn (length found) data = found ->
  exists vS' vS1' mc' data' best' found',
    heu_step g c (vS, vS1, mc, data) = Val (vS', vS1', mc', data') /\ length vS' = length vS /\ length vS1' = length vS1 /\
    bound mc' best' /\ firstn (length found') data' = found' /\
    (if enough n adj best c && (best <? length (attempt n adj best c)) then best' = length (attempt n adj best c) /\ found' = attempt n adj best c
     else mc' = mc /\ best' = best /\ found' = found).
Proof.
  intros HB Hc HL HL1 HD. unfold heu_step. rewrite (get_degree_ok R) by auto. cbn [rbind].
  rewrite Z.ltb_antisym. fold (strong nb mc c). rewrite (bound_strong _ HB). destruct (enough n adj best c) eqn:Es; cbn [negb andb].
  2:{ exists vS, vS1, mc, data, best, found. repeat (split; auto). }
  destruct (@heu_fill_ok _ _ _ _ R mc c vS Hc (HL c Hc)) as (arr & E & La & F1 & F2). rewrite E. cbn [rbind].
  assert (EQ : filter (strong nb mc) (nb c) = filter (enough n adj best) (around n adj c)) by (rewrite NB; apply filter_ext; intro x; apply bound_strong; auto).
  rewrite EQ in *. set (F := filter (enough n adj best) (around n adj c)) in *.
  assert (LF : length F <= dg c) by (unfold deg; rewrite NB; apply filter_length_le). specialize (HL c Hc).
  destruct (@while_exact mc best HB (length arr) arr vS1 (1 + length F) 0) as (arr1' & L1 & EW); try lia.
  { rewrite F1. intros x [<-|Hx]; auto. unfold F, around in Hx. apply filter_In in Hx. destruct Hx as [Hx _]. apply filter_In in Hx. destruct Hx as [Hx _]. apply in_seq in Hx. lia. }
  rewrite EW, F1. cbn [rbind plus].
  assert (EA : arr = (c :: F) ++ skipn (1 + length F) arr) by (rewrite <- F1; symmetry; apply firstn_skipn).
  rewrite (@grow_fuel best (length arr) (length (c :: F)) (c :: F) arr) by (cbn [length]; lia). rewrite EA, grow_app by auto. cbn [fst snd].
  pose proof (@grow_len best (length (c :: F)) (c :: F) (c :: F) (le_n _)) as GL. pose proof (@grow_count best (length (c :: F)) (c :: F) (c :: F)) as GC.
  assert (K1 : 1 <= snd (grow n adj (length (c :: F)) best (c :: F) (c :: F))).
  { cbn [length grow]. match goal with |- context [grow n adj ?a ?b ?p ?s] => destruct (grow n adj a b p s) as [s0 k0] end. cbn [snd]. lia. }
  unfold attempt. fold F. destruct (grow n adj (length (c :: F)) best (c :: F) (c :: F)) as [s k]. cbn [fst snd] in *.
  assert (GL2 : length s = S (length F)) by exact GL. assert (GC2 : k <= S (length F)) by exact GC.
  rewrite (bound_lt HB K1), firstn_length_le by lia.
  destruct (best <? k).
  - eexists _, _, _, _, k, (firstn k s). split; [reflexivity|]. split; [rewrite app_length, skipn_length; lia|]. split; auto. split; [left; auto|]. split.
    + rewrite firstn_length_le by lia. rewrite firstn_app. replace (k - length s) with 0 by lia. cbn [firstn]. apply app_nil_r.
    + auto.
  - eexists _, _, _, _, best, found. split; [reflexivity|]. split; [rewrite app_length, skipn_length; lia|]. repeat (split; auto).
Qed.

Lemma all_exact : forall cs vS vS1 mc best data found, bound mc best -> (forall c, In c cs -> c < n) ->
  (forall v, v < n -> 1 + dg v <= length vS) -> length vS <= length vS1 -> firstn (length found) data = found ->
  (found <> [] -> best = length found) ->
  exists vS' vS1' mc' data' best',
    rfold (heu_step g) cs (vS, vS1, mc, data) = Val (vS', vS1', mc', data') /\
    bound mc' best' /\ firstn (length (search n adj cs best found)) data' = search n adj cs best found /\
    (search n adj cs best found <> [] -> best' = length (search n adj cs best found)) /\
    (search n adj cs best found = [] -> mc' = mc /\ best' = best).
Proof.
  induction cs as [|c cs IH]; intros vS vS1 mc best data found HB Hcs HL HL1 HD HF; cbn [rfold search].
  { eexists _, _, _, _, best. split; [reflexivity|]. auto. }
  destruct (@step_exact c vS vS1 mc best data found HB (Hcs c (or_introl eq_refl)) HL HL1 HD)
    as (vS' & vS1' & mc' & data' & best' & found' & E & L & L1 & B' & D' & X).
  rewrite E. cbn [rbind]. destruct (enough n adj best c && (best <? length (attempt n adj best c))) eqn:EC.
  - destruct X as (-> & ->).
    destruct (IH vS' vS1' mc' (length (attempt n adj best c)) data' (attempt n adj best c)) as (a & b & mc2 & d2 & b2 & Y1 & Y2 & Y3 & Y4 & Y5); auto; try lia.
    { intros x Hx. apply Hcs. right. auto. }
    { intros v Hv. rewrite L. auto. }
    exists a, b, mc2, d2, b2. split; auto. split; auto. split; auto. split; auto.
    intro Z. exfalso. apply andb_true_iff in EC. destruct EC as [_ EC]. apply Nat.ltb_lt in EC.
    assert (G : forall cs best found, found <> [] -> search n adj cs best found <> []).
    { clear - R. induction cs as [|c cs IH]; intros best found H; cbn [search]; auto.
      destruct (enough n adj best c && (best <? length (attempt n adj best c))) eqn:E; auto. apply IH.
      apply andb_true_iff in E. destruct E as [_ E]. apply Nat.ltb_lt in E. intro Z. rewrite Z in E. cbn in E. lia. }
    apply G in Z; auto. intro Z2. rewrite Z2 in EC. cbn in EC. lia.
  - destruct X as (-> & -> & ->).
    destruct (IH vS' vS1' mc best data' found) as (a & b & mc2 & d2 & b2 & Y1 & Y2 & Y3 & Y4 & Y5); auto; try lia.
    { intros x Hx. apply Hcs. right. auto. }
    { intros v Hv. rewrite L. auto. }
    exists a, b, mc2, d2, b2. auto.
Qed.
End Graph.

Lemma nodelist_around m v : read_nodelist m v = around (m_rows m) (adjb m) v.
Proof. apply read_nodelist_spec. Qed.


(** ** What is handed over *)
Theorem heu_exact m : 0 < m_rows m -> exists data,
  find_max_clique_heu m = Val (Z.of_nat (length (greedy (m_rows m) (adjb m))), data) /\
  firstn (length (greedy (m_rows m) (adjb m))) data = greedy (m_rows m) (adjb m) /\ greedy (m_rows m) (adjb m) <> [].
Proof.
  intro Hm. pose proof (find_heu_ok m) as OK. unfold find_max_clique_heu in *. destruct (read_eigen_repr m) as (g & E & R). rewrite E in *. cbn [rbind] in *.
  unfold max_clique_heu in *. rewrite (r_len R) in *. replace (m_rows m + 1 - 1) with (m_rows m) in * by lia.
  set (buf := repeat 0 (Z.to_nat (g_maxdeg g + 1))) in *.
  destruct (@all_exact _ _ _ _ R (nodelist_around m) (seq 0 (m_rows m)) buf buf (-1)%Z 0 [] []) as (a & b & mc & data & best & X1 & X2 & X3 & X4 & X5); auto.
  - right. auto.
  - intros c Hc. apply in_seq in Hc. lia.
  - apply (buf_len R).
  - rewrite X1 in *. cbn [rbind] in *. fold (greedy (m_rows m) (adjb m)) in *. set (A := greedy (m_rows m) (adjb m)) in *.
    assert (NE : A <> []).
    { intro Z. destruct (X5 Z) as (-> & _). destruct OK as [(Z0 & _)|(picks & d & OK & _)]; [lia|]. injection OK as OK _. lia. }
    exists data. split; auto. f_equal. f_equal. specialize (X4 NE). destruct X2 as [X2|[_ X2]]; [congruence|]. rewrite X2 in X4. destruct A; [congruence|discriminate].
Qed.

Theorem inc_exact m new prev : (Z.of_nat (m_rows m) < size_t_mod)%Z -> new <= m_rows m -> exists data,
  find_max_clique_heu_inc m new prev = Val (Z.of_nat (length (greedy_new (m_rows m) (adjb m) new prev)), data) /\
  firstn (length (greedy_new (m_rows m) (adjb m) new prev)) data = greedy_new (m_rows m) (adjb m) new prev /\
  (greedy_new (m_rows m) (adjb m) new prev <> [] -> prev < length (greedy_new (m_rows m) (adjb m) new prev)).
Proof.
  intros Hn Hk. unfold find_max_clique_heu_inc. destruct (read_eigen_repr m) as (g & E & R). rewrite E. cbn [rbind].
  destruct (max_clique_heu_inc_ok R prev Hn Hk) as (mc0 & data0 & OK & HI & _). rewrite OK. cbn [rbind].
  unfold max_clique_heu_inc in OK. rewrite (r_len R), (heu_start_ok Hn Hk) in OK.
  replace (m_rows m + 1 - 1) with (m_rows m) in OK by lia. rewrite Nat2Z.id in OK. replace (m_rows m - (m_rows m - new)) with new in OK by lia.
  replace (if (Z.of_nat (m_rows m - new) <? Z.of_nat (m_rows m))%Z then seq (m_rows m - new) new else []) with (seq (m_rows m - new) new) in OK.
  2:{ destruct (Z.ltb_spec (Z.of_nat (m_rows m - new)) (Z.of_nat (m_rows m))); auto. assert (new = 0) by lia. subst. reflexivity. }
  set (buf := repeat 0 (Z.to_nat (g_maxdeg g + 1))) in *.
  destruct (@all_exact _ _ _ _ R (nodelist_around m) (seq (m_rows m - new) new) buf buf (Z.of_nat prev) prev [] []) as (a & b & mc & data & best & X1 & X2 & X3 & X4 & X5); auto.
  - left. auto.
  - intros c Hc. apply in_seq in Hc. lia.
  - apply (buf_len R).
  - congruence.
  - rewrite X1 in OK. cbn [rbind] in OK. injection OK as -> ->. fold (greedy_new (m_rows m) (adjb m) new prev) in *. set (A := greedy_new (m_rows m) (adjb m) new prev) in *.
    destruct A as [|x A'] eqn:EA.
    + destruct (X5 eq_refl) as (-> & _). rewrite Z.ltb_irrefl. exists data0. split; auto. split; auto. congruence.
    + specialize (X4 ltac:(discriminate)). assert (M : mc0 = Z.of_nat (length (x :: A'))).
      { destruct X2 as [X2|[_ X2]]; [congruence|]. rewrite X2 in X4. discriminate. }
      assert (LT : prev < length (x :: A')).
      { destruct HI as [[-> ->]|(p & c & HI & _)]; [|lia]. cbn [firstn] in X3. discriminate X3. }
      subst mc0. destruct (Z.ltb_spec (Z.of_nat prev) (Z.of_nat (length (x :: A')))); [|lia]. exists data0. auto.
Qed.
