(** * A separate group is what is accepted: proofs *)
From Coq Require Import Lia Permutation.
From Verif Require Import Prelude Keys KMap UMap Geometry Factors Clique CliqueSpec CliqueRead Pcm Solver ValuesProofs PcmSpec PcmProofs PcmInv PcmStore HistSpec StoreSpec
  SolverProofs HistProofs GraphProofs StoreProofs AcceptProofs LiveProofs StoreThms ItemProofs SafeProofs RemoveSpec RemoveExact RecordProofs IncSpec IncProofs
  ApartSpec ApartProofs ApartMore CliqueExact CliqueHeu HeuSpec HeuProofs ExactSpec ExactProofs GroupSpec.
Set Implicit Arguments.
Local Open Scope nat_scope.

(** ** The search over lists *)
Section Search.
Variables (n : nat) (agrees : nat -> nat -> bool).
Hypothesis sym : forall i j, agrees i j = agrees j i.
Hypothesis irr : forall i, agrees i i = false.
Notation around := (around n agrees).
Notation enough := (enough n agrees).
Notation grow := (grow n agrees).
Notation attempt := (attempt n agrees).
Notation search := (search n agrees).

Lemma in_around c x : In x (around c) <-> x < n /\ agrees c x = true.
Proof. unfold HeuSpec.around. rewrite filter_In, in_seq. split; intros [A B]; split; auto; lia. Qed.

(** Those who all agree with each other stay, all of them. *)
Lemma grow_clique b T : forall fuel P, length P <= fuel -> NoDup P -> (forall x, In x P -> enough b x = true) ->
  (forall x y, In x P -> In y P -> x <> y -> agrees x y = true) -> grow fuel b P (P ++ T) = (P ++ T, length P).
Proof.
  intros fuel P. revert T fuel. induction P as [|v P IH] using rev_ind; intros T fuel HL HN HE HA; [destruct fuel; auto|].
  rewrite app_length in HL. cbn in HL. destruct fuel as [|fuel]; [lia|].
  assert (HNP : NoDup P /\ ~ In v P). { apply NoDup_remove in HN. rewrite app_nil_r in HN. auto. }
  assert (EQ : grow (S fuel) b (P ++ [v]) ((P ++ [v]) ++ T) =
    let pool' := filter (fun x => agrees (last (P ++ [v]) 0) x && enough b x) (P ++ [v]) in
    let '(s, k) := grow fuel b pool' (pool' ++ skipn (length pool') ((P ++ [v]) ++ T)) in (s, S k)).
  { destruct P; reflexivity. }
  rewrite EQ. cbv zeta. rewrite last_last.
  assert (EF : filter (fun x => agrees v x && enough b x) (P ++ [v]) = P).
  { rewrite filter_app. cbn [filter]. rewrite irr. cbn [andb]. rewrite app_nil_r. apply filter_all. intros x Hx. rewrite HE by (apply in_or_app; auto).
    rewrite HA; auto; [apply in_or_app; right; left; auto|apply in_or_app; auto|]. intros ->. tauto. }
  rewrite EF. rewrite <- app_assoc. rewrite skipn_app, skipn_all, Nat.sub_diag. cbn [app skipn].
  rewrite (IH (v :: T) fuel); [|lia|tauto|intros x Hx; apply HE, in_or_app; auto|intros x y Hx Hy; apply HA; apply in_or_app; auto].
  rewrite app_length. cbn. f_equal. lia.
Qed.
Lemma attempt_clique b c : enough b c = true -> c < n -> (forall x, In x (around c) -> enough b x = true) ->
  (forall x y, In x (around c) -> In y (around c) -> x <> y -> agrees x y = true) -> attempt b c = c :: around c.
Proof.
  intros HC Hn HE HA. unfold HeuSpec.attempt. rewrite (filter_all (enough b)) by auto.
  pose proof (@grow_clique b [] (length (c :: around c)) (c :: around c)) as G. rewrite app_nil_r in G. rewrite G; auto.
  - apply firstn_all.
  - constructor; [rewrite in_around, irr; intros [_ X]; discriminate|]. apply NoDup_filter, seq_NoDup.
  - intros x [<-|Hx]; auto.
  - intros x y [<-|Hx] [<-|Hy] N; auto; try congruence.
    + apply in_around in Hy. tauto.
    + apply in_around in Hx. rewrite sym. tauto.
Qed.
Lemma grow_bound b : forall fuel P T, snd (grow fuel b P T) <= length P.
Proof.
  induction fuel as [|fuel IH]; intros P T; [cbn; lia|]. destruct P as [|x P]; [cbn; lia|]. cbn [HeuSpec.grow].
  set (pool' := filter _ (x :: P)). specialize (IH pool' (pool' ++ skipn (length pool') T)).
  destruct (grow fuel b pool' _) as [s k]. cbn [snd] in *.
  assert (H : length pool' <= length P).
  { destruct (exists_last (l := x :: P)) as (l & v & E); [discriminate|]. unfold pool'. rewrite E, last_last, filter_app. cbn [filter]. rewrite irr. cbn [andb].
    rewrite app_nil_r. pose proof (filter_le (fun y => agrees v y && enough b y) l). apply (f_equal (@length nat)) in E. rewrite app_length in E. cbn in E. lia. }
  cbn [length]. lia.
Qed.
Lemma attempt_len b c : length (attempt b c) <= S (length (around c)).
Proof.
  unfold HeuSpec.attempt. destruct (grow _ _ _ _) as [s k] eqn:E.
  pose proof (grow_bound b (length (c :: filter (enough b) (around c))) (c :: filter (enough b) (around c)) (c :: filter (enough b) (around c))) as X.
  rewrite E in X. cbn [snd length] in X. rewrite firstn_length. pose proof (filter_le (enough b) (around c)). lia.
Qed.

(** A group of at most [M], the others with fewer friends. *)
Variables (good : nat -> bool) (M : nat).
Hypothesis G1 : forall i j, i < n -> j < n -> i <> j -> good i = true -> good j = true -> agrees i j = true.
Hypothesis G2 : forall i j, i < n -> j < n -> good i = true -> good j = false -> agrees i j = false.
Hypothesis G3 : forall j, j < n -> good j = false -> S (length (around j)) < M.
Notation members := (members n good).
Lemma in_members x : In x members <-> x < n /\ good x = true.
Proof. unfold GroupSpec.members. rewrite filter_In, in_seq. split; intros [A B]; split; auto; lia. Qed.
Hypothesis G4 : length members <= M.

Lemma around_good c x : c < n -> good c = true -> (In x (around c) <-> x < n /\ good x = true /\ x <> c).
Proof.
  intros Hc Hg. rewrite in_around. split.
  - intros [Hx A]. split; auto. split; [|intros ->; rewrite irr in A; discriminate]. destruct (good x) eqn:E; auto. rewrite (G2 Hc Hx Hg E) in A. discriminate.
  - intros (Hx & A & N). split; auto.
Qed.
Lemma around_perm c : c < n -> good c = true -> Permutation (c :: around c) members.
Proof.
  intros Hc Hg. apply NoDup_Permutation.
  - constructor; [rewrite in_around, irr; intros [_ X]; discriminate|]. apply NoDup_filter, seq_NoDup.
  - apply NoDup_filter, seq_NoDup.
  - intro x. cbn [In]. rewrite in_members, around_good by auto. split.
    + intros [<-|X]; tauto.
    + intros [X Y]. destruct (Nat.eq_dec c x); auto.
Qed.
Lemma around_len c : c < n -> good c = true -> S (length (around c)) = length members.
Proof. intros Hc Hg. apply (Permutation_length (around_perm Hc Hg)). Qed.

(** Nothing replaces a selection of [M]. *)
Lemma search_full : forall cs found, (forall c, In c cs -> c < n) -> search cs M found = found.
Proof.
  induction cs as [|c cs IH]; intros found H; auto. cbn [HeuSpec.search].
  assert (E : enough M c = false).
  { unfold HeuSpec.enough. apply Nat.leb_gt. assert (Hc : c < n) by (apply H; left; auto). destruct (good c) eqn:Eg.
    - pose proof (around_len Hc Eg). lia.
    - pose proof (G3 Hc Eg). lia. }
  rewrite E. cbn [andb]. apply IH. intros; apply H; right; auto.
Qed.
(** Before the group is complete, or without looking at it, less than [M] are found. *)
Lemma search_less : forall cs b found, (forall c, In c cs -> c < n) -> (length members < M \/ forall c, In c cs -> good c = false) -> b < M -> length found < M ->
  length (search cs b found) < M.
Proof.
  induction cs as [|c cs IH]; intros b found H HB Hb Hf; auto. cbn [HeuSpec.search].
  assert (HB' : length members < M \/ forall c, In c cs -> good c = false) by (destruct HB as [X|X]; [auto|right; intros; apply X; right; auto]).
  assert (H' : forall c, In c cs -> c < n) by (intros; apply H; right; auto).
  destruct (_ && _) eqn:E; [|apply IH; auto].
  assert (Hl : length (attempt b c) < M).
  { pose proof (attempt_len b c). assert (Hc : c < n) by (apply H; left; auto). destruct (good c) eqn:Eg.
    - pose proof (around_len Hc Eg). destruct HB as [X|X]; [lia|]. rewrite X in Eg by (left; auto). discriminate.
    - pose proof (G3 Hc Eg). lia. }
  apply IH; auto.
Qed.
(** The first member of a complete group brings all others. *)
Lemma search_found : length members = M -> forall cs b found, (forall c, In c cs -> c < n) -> (exists c, In c cs /\ good c = true) -> b < M ->
  exists l1 c l2, cs = l1 ++ c :: l2 /\ (forall x, In x l1 -> good x = false) /\ good c = true /\ search cs b found = c :: around c.
Proof.
  intro HM. induction cs as [|c cs IH]; intros b found H (x & Hx & Hg) Hb; [destruct Hx|]. cbn [HeuSpec.search].
  assert (H' : forall c, In c cs -> c < n) by (intros; apply H; right; auto). assert (Hc : c < n) by (apply H; left; auto).
  destruct (good c) eqn:Eg.
  - exists [], c, cs. split; auto. split; [intros y []|]. split; auto.
    pose proof (around_len Hc Eg) as AL.
    assert (EN : forall y, y < n -> good y = true -> enough b y = true).
    { intros y Hy Gy. unfold HeuSpec.enough. apply Nat.leb_le. pose proof (around_len Hy Gy). lia. }
    assert (EA : attempt b c = c :: around c).
    { apply attempt_clique; auto.
      - intros y Hy. apply around_good in Hy; auto. apply EN; tauto.
      - intros y z Hy Hz N. apply around_good in Hy; auto. apply around_good in Hz; auto. apply G1; tauto. }
    rewrite EN, EA by auto. cbn [length]. rewrite AL, HM. destruct (Nat.ltb_spec b M); [|lia]. cbn [andb]. apply search_full. auto.
  - assert (EX : exists y, In y cs /\ good y = true) by (destruct Hx as [->|Hx]; [congruence|eauto]).
    assert (Hl : length (attempt b c) < M) by (pose proof (attempt_len b c); pose proof (G3 Hc Eg); lia).
    destruct (_ && _).
    + destruct (IH (length (attempt b c)) (attempt b c) H' EX Hl) as (l1 & y & l2 & -> & A & B & E). exists (c :: l1), y, l2. split; auto. split; auto.
      intros z [<-|Hz]; auto.
    + destruct (IH b found H' EX Hb) as (l1 & y & l2 & -> & A & B & E). exists (c :: l1), y, l2. split; auto. split; auto. intros z [<-|Hz]; auto.
Qed.
End Search.

Theorem greedy_group n agrees good : (forall i j, agrees i j = agrees j i) -> (forall i, agrees i i = false) -> separate_group n agrees good -> greedy n agrees = members n good.
Proof.
  intros Hs Hi (G1 & G2 & G3). unfold greedy. destruct (members n good) as [|m ms] eqn:EM.
  { destruct n as [|n]; auto. destruct (good 0) eqn:E0; [cbn in EM; rewrite E0 in EM; discriminate|]. assert (X : 0 < S n) by lia. apply (G3 0 X) in E0. cbn [length] in E0. lia. }
  assert (Hm : In m (members n good)) by (rewrite EM; left; auto). apply in_members in Hm.
  rewrite <- EM in G3. destruct (@search_found n agrees Hs Hi good (length (members n good)) G1 G2 G3 (le_n _) eq_refl (seq 0 n) 0 []) as (l1 & c & l2 & E & A & B & ->).
  - intros c Hc. apply in_seq in Hc. lia.
  - exists m. split; [apply in_seq; lia|tauto].
  - rewrite EM. cbn. lia.
  - rewrite <- EM. unfold members, around. rewrite E, !filter_app. cbn [filter]. rewrite B, Hi.
    assert (HN : forall x, In x (l1 ++ c :: l2) -> x < n) by (intros x Hx; rewrite <- E in Hx; apply in_seq in Hx; lia).
    assert (Hc : c < n) by (apply HN, in_or_app; right; left; auto).
    assert (ND : NoDup (l1 ++ c :: l2)) by (rewrite <- E; apply seq_NoDup).
    rewrite (filter_none good l1) by auto. rewrite (filter_none (agrees c) l1). 2:{ intros x Hx. apply G2; auto. apply HN, in_or_app; auto. }
    cbn [app]. f_equal. apply filter_ext_in. intros x Hx. destruct (good x) eqn:Gx.
    + apply G1; auto; [apply HN, in_or_app; right; right; auto|]. intros ->. apply NoDup_remove_2 in ND. apply ND, in_or_app. auto.
    + apply G2; auto. apply HN, in_or_app. right; right; auto.
Qed.

(** A check for examples. *)
Definition separateb (n : nat) (agrees : nat -> nat -> bool) (good : nat -> bool) : bool :=
  forallb (fun i => forallb (fun j =>
    (negb (good i) || (if good j then (i =? j) || agrees i j else negb (agrees i j)))) (seq 0 n)) (seq 0 n) &&
  forallb (fun j => good j || (S (length (filter (agrees j) (seq 0 n))) <? length (members n good))) (seq 0 n).
Lemma separateb_ok n agrees good : separateb n agrees good = true -> separate_group n agrees good.
Proof.
  unfold separateb. intro H. apply andb_true_iff in H. destruct H as [H1 H2]. rewrite forallb_forall in H1, H2.
  assert (X : forall i j, i < n -> j < n -> negb (good i) || (if good j then (i =? j) || agrees i j else negb (agrees i j)) = true).
  { intros i j Hi Hj. assert (Ii : In i (seq 0 n)) by (apply in_seq; lia). apply H1 in Ii. rewrite forallb_forall in Ii. apply Ii, in_seq. lia. }
  split; [|split].
  - intros i j Hi Hj N Gi Gj. specialize (X i j Hi Hj). rewrite Gi, Gj in X. cbn [negb orb] in X. apply orb_true_iff in X. destruct X as [X|X]; auto. apply Nat.eqb_eq in X. congruence.
  - intros i j Hi Hj Gi Gj. specialize (X i j Hi Hj). rewrite Gi, Gj in X. cbn [negb orb] in X. apply negb_true_iff in X. auto.
  - intros j Hj Gj. assert (Ij : In j (seq 0 n)) by (apply in_seq; lia). apply H2 in Ij. rewrite Gj in Ij. cbn [orb] in Ij. apply Nat.ltb_lt in Ij. auto.
Qed.

(** ** One that agrees with nobody *)
Section Alone.
Variables (n : nat) (agrees : nat -> nat -> bool).
Hypothesis sym : forall i j, agrees i j = agrees j i.
Hypothesis irr : forall i, agrees i i = false.
Notation around := (around n agrees).
Notation enough := (enough n agrees).
Notation grow := (grow n agrees).
Notation attempt := (attempt n agrees).
Notation search := (search n agrees).

Lemma grow_shown b (Q : nat -> Prop) : forall fuel P T, (forall x, In x P -> Q x) -> (forall x, In x T -> Q x) -> length P <= length T ->
  (forall x, In x (fst (grow fuel b P T)) -> Q x) /\ length (fst (grow fuel b P T)) = length T.
Proof.
  induction fuel as [|fuel IH]; intros P T HP HT HL; [cbn; auto|]. destruct P as [|x P]; [cbn; auto|]. cbn [HeuSpec.grow].
  set (pool' := filter _ (x :: P)). assert (HL' : length pool' <= length (x :: P)) by apply filter_le.
  destruct (IH pool' (pool' ++ skipn (length pool') T)) as (A & B).
  - intros y Hy. apply filter_In in Hy. apply HP. tauto.
  - intros y Hy. apply in_app_or in Hy. destruct Hy as [Hy|Hy]; [apply filter_In in Hy; apply HP; tauto|]. apply HT. rewrite <- (firstn_skipn (length pool') T). apply in_or_app. auto.
  - rewrite app_length. lia.
  - destruct (grow fuel b pool' _) as [s k]. cbn [fst] in *. split; auto. rewrite B, app_length, skipn_length. lia.
Qed.
Lemma attempt_sub b c x : In x (attempt b c) -> x = c \/ In x (around c).
Proof.
  unfold HeuSpec.attempt. set (P := c :: filter _ _). pose proof (@grow_shown b (fun x => x = c \/ In x (around c)) (length P) P P) as G.
  destruct (grow (length P) b P P) as [s k]. cbn [fst] in G. intro H. apply G; auto.
  - intros y [<-|Hy]; auto. apply filter_In in Hy. tauto.
  - intros y [<-|Hy]; auto. apply filter_In in Hy. tauto.
  - rewrite <- (firstn_skipn k s). apply in_or_app. auto.
Qed.
Lemma attempt_two b c x : b < 2 -> c < n -> x < n -> agrees c x = true -> 2 <= length (attempt b c).
Proof.
  intros Hb Hc Hx HA. unfold HeuSpec.attempt.
  assert (EN : forall y z, y < n -> z < n -> agrees y z = true -> enough b y = true).
  { intros y z Hy Hz A. apply Nat.leb_le. assert (I : In z (around y)) by (apply in_around; auto). destruct (around y); [destruct I|cbn; lia]. }
  set (Q := filter (enough b) (around c)).
  assert (HQ : In x Q) by (apply filter_In; split; [apply in_around; auto|apply (EN x c); auto; rewrite sym; auto]).
  pose proof (@grow_shown b (fun _ => True) (length (c :: Q)) (c :: Q) (c :: Q)) as G.
  assert (K : 2 <= snd (grow (length (c :: Q)) b (c :: Q) (c :: Q))).
  { destruct (exists_last (l := Q)) as (Q' & v & E); [intro X; rewrite X in HQ; destruct HQ|].
    assert (Hv : In v Q) by (rewrite E; apply in_or_app; right; left; auto). apply filter_In in Hv. destruct Hv as [Hv _]. apply in_around in Hv.
    change (length (c :: Q)) with (S (length Q)). cbn [HeuSpec.grow]. assert (EL : last (c :: Q) 0 = v) by (rewrite E; change (c :: Q' ++ [v]) with ((c :: Q') ++ [v]); apply last_last).
    rewrite EL. set (pool' := filter _ (c :: Q)).
    assert (HI : In c pool'). { apply filter_In. split; [left; auto|]. rewrite sym. destruct Hv as [Hv1 Hv2]. rewrite Hv2. cbn [andb]. apply (EN c v); auto. }
    clearbody pool'. destruct pool' as [|z pool']; [destruct HI|]. assert (LQ : exists m, length Q = S m) by (rewrite E, app_length; exists (length Q'); cbn; lia).
    destruct LQ as [m ->]. cbn [HeuSpec.grow]. destruct (grow m b _ _) as [s k]. cbn [snd]. lia. }
  destruct (grow _ b (c :: Q) (c :: Q)) as [s k]. cbn [fst snd] in *. destruct G as [_ G]; auto. rewrite firstn_length, G.
  destruct Q; [destruct HQ|]. cbn [length]. lia.
Qed.
Lemma search_two : forall cs b found, (forall c, In c cs -> c < n) -> b <= length found \/ found = [] ->
  (b < 2 -> exists c x, In c cs /\ x < n /\ agrees c x = true) -> 2 <= b /\ search cs b found = found \/ 2 <= length (search cs b found).
Proof.
  induction cs as [|c cs IH]; intros b found HC HF HX.
  { destruct (le_lt_dec 2 b) as [H|H]; [auto|]. destruct (HX H) as (c & x & [] & _). }
  assert (HC' : forall c, In c cs -> c < n) by (intros; apply HC; right; auto). assert (Hc : c < n) by (apply HC; left; auto).
  cbn [HeuSpec.search]. destruct (enough b c && _) eqn:E.
  - apply andb_true_iff in E. destruct E as [E1 E2]. apply Nat.ltb_lt in E2. right. destruct (IH (length (attempt b c)) (attempt b c) HC') as [(X & ->)|X]; auto.
    intro LT. assert (LB : b < 2) by lia. destruct (HX LB) as (c' & x & [<-|Hc'] & Hx & HA); [|eauto]. pose proof (@attempt_two b c x LB Hc Hx HA). lia.
  - apply IH; auto. intro LT. destruct (HX LT) as (c' & x & [<-|Hc'] & Hx & HA); [|eauto].
    assert (E1 : enough b c = true). { apply Nat.leb_le. assert (I : In x (around c)) by (apply in_around; auto). destruct (around c); [destruct I|cbn; lia]. }
    pose proof (@attempt_two b c x LT Hc Hx HA). rewrite E1 in E. cbn [andb] in E. apply Nat.ltb_ge in E. lia.
Qed.
(** What is found is what was found before or an attempt. *)
Lemma search_attempt : forall cs b found, search cs b found = found \/ exists c b', In c cs /\ b < length (attempt b' c) /\ search cs b found = attempt b' c.
Proof.
  induction cs as [|c cs IH]; intros b found; auto. cbn [HeuSpec.search]. destruct (enough b c && _) eqn:E.
  - apply andb_true_iff in E. destruct E as [_ E2]. apply Nat.ltb_lt in E2. right. destruct (IH (length (attempt b c)) (attempt b c)) as [->|(c' & b' & I & L & ->)].
    + exists c, b. split; [left|]; auto.
    + exists c', b'. split; [right; auto|]. split; auto. lia.
  - destruct (IH b found) as [->|(c' & b' & I & L & ->)]; auto. right. exists c', b'. split; [right|]; auto.
Qed.
Lemma attempt_backed b c x : c < n -> 2 <= length (attempt b c) -> In x (attempt b c) -> exists y, agrees x y = true.
Proof.
  intros Hc HL HI. apply attempt_sub in HI. destruct HI as [->|HI].
  - pose proof (@attempt_len n agrees irr b c) as X. destruct (around c) as [|y l] eqn:E; [cbn in X; lia|]. exists y. apply (in_around n agrees). rewrite E. left; auto.
  - exists c. rewrite sym. apply in_around in HI. tauto.
Qed.
Lemma search_none : (forall i j, agrees i j = false) -> forall cs b found, 1 <= b -> search cs b found = found.
Proof.
  intro H. induction cs as [|c cs IH]; intros b found Hb; auto. cbn [HeuSpec.search]. assert (E : enough b c = false).
  { apply Nat.leb_gt. unfold HeuSpec.around. rewrite filter_none by auto. cbn. lia. }
  rewrite E. apply IH. auto.
Qed.
Lemma search_first : (forall i j, agrees i j = false) -> forall c cs, search (c :: cs) 0 [] = [c].
Proof.
  intros H c cs. assert (EA : around c = []) by (apply filter_none; auto).
  assert (E : attempt 0 c = [c]).
  { unfold HeuSpec.attempt. rewrite EA. cbn [filter length HeuSpec.grow last app]. rewrite H. cbn [andb app length skipn firstn]. auto. }
  cbn [HeuSpec.search]. rewrite E. unfold HeuSpec.enough. rewrite EA. cbn [length Nat.leb Nat.ltb andb]. apply search_none; auto.
Qed.
End Alone.

(** ** Histories *)
Section X.
Variable O : tops.
Variable C : config.
Variable W : soracles O.
Notation bf := (bf O).
Notation op := (op O).
Notation solver := (solver O).
Notation start := (@solver_init O true).
Notation item := (bf * (N -> key -> t_T O))%type.
Notation live := (@live_items O C W).
Implicit Types (test : item -> item -> option bool) (L : list item).

Lemma agreeb_sym test L i j : agreeb test L i j = agreeb test L j i.
Proof. unfold agreeb. destruct (nth_error L i), (nth_error L j); auto. destruct (Nat.ltb_spec i j), (Nat.ltb_spec j i); auto; lia. Qed.
Lemma agreeb_irr test L i : agreeb test L i i = false.
Proof. unfold agreeb. destruct (nth_error L i); auto. rewrite Nat.ltb_irrefl. auto. Qed.
Lemma agreeb_app test L T i j : i < length L -> j < length L -> agreeb test (L ++ T) i j = agreeb test L i j.
Proof. intros. unfold agreeb. rewrite !nth_error_app1 by auto. auto. Qed.
Lemma places_app L T idx : (forall i, In i idx -> i < length L) -> at_places (L ++ T) idx = at_places L idx.
Proof.
  intro H. unfold at_places. rewrite !flat_map_concat_map. f_equal. apply map_ext_in. intros i Hi. rewrite nth_error_app1 by auto. auto.
Qed.
Lemma places_len L idx : length (at_places L idx) <= length idx.
Proof. induction idx as [|i idx IH]; auto. cbn [at_places flat_map]. rewrite app_length. destruct (nth_error L i); cbn [length]; unfold at_places in IH; lia. Qed.
Lemma places_all L idx : (forall i, In i idx -> i < length L) -> length (at_places L idx) = length idx.
Proof.
  intro H. induction idx as [|i idx IH]; auto. cbn [at_places flat_map]. rewrite app_length. fold (at_places L idx). rewrite IH by (intros; apply H; right; auto).
  destruct (nth_error L i) eqn:E; auto. apply nth_error_None in E. specialize (H i (or_introl eq_refl)). lia.
Qed.

Lemma selection_group test L good : separate_group (length L) (agreeb test L) good -> selection test L = at_places L (members (length L) good).
Proof. intro H. unfold selection. rewrite (@greedy_group _ _ good); auto; intros; [apply agreeb_sym|apply agreeb_irr]. Qed.
Lemma selection_few test L : length L <= 1 -> selection test L = map fst L.
Proof.
  intro H. destruct L as [|x [|y L]]; [auto| |cbn in H; lia]. rewrite (@selection_group _ _ (fun _ => true)); auto. cbn [length]. split; [|split]; intros; try discriminate. lia.
Qed.

(** Not incremental: what is accepted is the selection from what is left. *)
Lemma accepted_batch id h : c_incremental C = false -> accepted C W id h = selection (@lc_test O) (live id h).
Proof.
  intro HI. induction h as [|o h IH] using rev_ind; auto. rewrite accepted_snoc. unfold accept_step. rewrite HI.
  destruct (takes_back C W id h o) eqn:ET.
  - destruct (length (live id h) <=? 2) eqn:E2; auto. apply Nat.leb_le in E2. symmetry. apply selection_few. rewrite live_one, ET.
    destruct (live id h) as [|a [|b [|c l]]]; cbn in *; lia.
  - destruct (filter _ (newly C W h o)) as [|y l] eqn:EN; auto. rewrite live_one, ET, EN, app_nil_r. auto.
Qed.

Lemma members_app n k good : members (n + k) good = members n good ++ filter good (seq n k).
Proof. unfold members. rewrite seq_app, filter_app. auto. Qed.

(** Incremental: once the group is complete it is accepted, and stays. *)
Lemma accepted_inc id L good : c_incremental C = true -> separate_group (length L) (agreeb (@lc_test O) L) good ->
  forall h T, no_removal h -> L = live id h ++ T ->
  (length (members (length (live id h)) good) < length (members (length L) good) -> length (accepted C W id h) < length (members (length L) good)) /\
  (length (members (length (live id h)) good) = length (members (length L) good) -> Permutation (accepted C W id h) (at_places L (members (length L) good))).
Proof.
  intros HI (S1 & S2 & S3). set (M := length (members (length L) good)) in *. induction h as [|o h IH] using rev_ind; intros T HR EL.
  { change (accepted C W id []) with (@nil bf). cbn [live_items items_from filter] in *. change (live id []) with (@nil item). cbn [length]. change (members 0 good) with (@nil nat). cbn [length].
    split; [auto|]. intro E. unfold M in E. destruct (members (length L) good); [constructor|discriminate]. }
  assert (HR0 : no_removal h) by (intros x Hx; apply HR, in_or_app; auto).
  assert (ER : is_removal o = false) by (apply HR, in_or_app; right; left; auto).
  assert (ET : takes_back C W id h o = false) by (unfold takes_back; destruct o; try discriminate; auto).
  rewrite accepted_snoc. unfold accept_step. rewrite ET, HI. rewrite live_one, ET in *.
  destruct (filter (fun x => of_pair id (fst x)) (newly C W h o)) as [|y l] eqn:EN.
  { rewrite app_nil_r in *. apply (IH T); auto. }
  set (new := y :: l) in *. set (n := length (live id h)) in *. set (k := length new) in *. rewrite <- app_assoc in EL.
  destruct (IH _ HR0 EL) as (I1 & I2). clear IH.
  set (L' := live id h ++ new) in *. assert (EL' : L = L' ++ T) by (unfold L'; rewrite <- app_assoc; auto).
  assert (LN : length L' = n + k) by (unfold L'; rewrite app_length; auto).
  assert (LL : length L = n + k + length T) by (rewrite EL', app_length, LN; auto).
  assert (EA : forall i j, i < n + k -> j < n + k -> agreeb (@lc_test O) L i j = agreeb (@lc_test O) L' i j) by (intros; rewrite EL'; apply agreeb_app; lia).
  assert (G1 : forall i j, i < n + k -> j < n + k -> i <> j -> good i = true -> good j = true -> agreeb (@lc_test O) L' i j = true).
  { intros. rewrite <- EA by auto. apply S1; auto; lia. }
  assert (G2 : forall i j, i < n + k -> j < n + k -> good i = true -> good j = false -> agreeb (@lc_test O) L' i j = false).
  { intros. rewrite <- EA by auto. apply S2; auto; lia. }
  assert (G3 : forall j, j < n + k -> good j = false -> S (length (around (n + k) (agreeb (@lc_test O) L') j)) < M).
  { intros j Hj Gj. assert (Hj' : j < length L) by lia. specialize (S3 j Hj' Gj). rewrite LL, seq_app, filter_app, app_length in S3. unfold around.
    rewrite (filter_ext_in (agreeb (@lc_test O) L' j) (agreeb (@lc_test O) L j)). 2:{ intros x Hx. apply in_seq in Hx. symmetry. apply EA; lia. } lia. }
  assert (EM : members (length L) good = members (n + k) good ++ filter good (seq (n + k) (length T))) by (rewrite LL; apply members_app).
  assert (G4 : length (members (n + k) good) <= M) by (unfold M; rewrite EM, app_length; lia).
  assert (E0 : length (members (n + k) good) = length (members n good) + length (filter good (seq n k))) by (rewrite members_app, app_length; auto).
  unfold selection_new. fold L' k. rewrite LN. unfold greedy_new. replace (n + k - k) with n by lia.
  set (was := accepted C W id h) in *. set (f := agreeb (@lc_test O) L') in *.
  assert (Hs : forall i j, f i j = f j i) by (intros; apply agreeb_sym). assert (Hi : forall i, f i i = false) by (intros; apply agreeb_irr).
  assert (HC : forall c, In c (seq n k) -> c < n + k) by (intros c Hc; apply in_seq in Hc; lia).
  split.
  - intro LT. assert (LW : length was < M) by (apply I1; lia).
    assert (X : length (search (n + k) f (seq n k) (length was) []) < M) by (apply (@search_less (n + k) f Hi good M G1 G2 G3 G4); auto; cbn; lia).
    destruct (search _ _ _ _ _) as [|i idx] eqn:ES; auto. pose proof (places_len L' (i :: idx)). lia.
  - intro EQ. assert (EMM : members (length L) good = members (n + k) good).
    { rewrite EM. destruct (filter good (seq (n + k) (length T))) as [|z zs] eqn:EZ; [apply app_nil_r|]. unfold M in EQ. rewrite EM, app_length in EQ. cbn in EQ. lia. }
    assert (PL : at_places L (members (length L) good) = at_places L' (members (n + k) good)).
    { rewrite EMM, EL'. apply places_app. intros i Hi'. apply in_members in Hi'. lia. }
    destruct (Nat.eq_dec (length (members n good)) M) as [E|E].
    + assert (P : Permutation was (at_places L (members (length L) good))) by (apply I2; auto).
      assert (LW : length was = M). { rewrite (Permutation_length P). unfold M. apply places_all. intros i Hi'. apply in_members in Hi'. lia. }
      rewrite LW, (@search_full (n + k) f Hi good M G1 G2 G3 G4) by auto. auto.
    + assert (LW : length was < M) by (apply I1; lia).
      assert (EX : exists c, In c (seq n k) /\ good c = true).
      { destruct (filter good (seq n k)) as [|c cs] eqn:EC; [change (length (@nil nat)) with 0 in E0; lia|]. exists c. apply filter_In. rewrite EC. left; auto. }
      destruct (@search_found (n + k) f Hs Hi good M G1 G2 G3 G4 EQ (seq n k) (length was) [] HC EX LW) as (l1 & c & l2 & EC & _ & Gc & ->).
      rewrite PL. apply Permutation_flat_map. apply (@around_perm (n + k) f Hi good G1 G2); auto. apply HC. rewrite EC. apply in_or_app. right; left; auto.
Qed.

Theorem pairs_group h (s : solver) rs id good : c_loop_check C = true -> run C W h start = Ok s rs -> records_sound C W h -> small C (length (sp_stored C W h)) ->
  (c_incremental C = true -> no_removal h) -> pair_ignored h id = false -> separate_group (length (live id h)) (agreeb (@lc_test O) (live id h)) good ->
  Permutation (graph_lcs C h id (s_nfg s)) (at_places (live id h) (members (length (live id h)) good)).
Proof.
  intros HC H HK HZ HR HG HS. rewrite (pairs_exact id HC H HK HZ), HG. destruct (c_incremental C) eqn:HI.
  - destruct (@accepted_inc id (live id h) good HI HS h []) as (_ & X); auto. rewrite app_nil_r. auto.
  - rewrite accepted_batch, (@selection_group _ _ good) by auto. auto.
Qed.
Theorem pairs_batch h (s : solver) rs id : c_loop_check C = true -> c_incremental C = false -> run C W h start = Ok s rs -> records_sound C W h -> 
  graph_lcs C h id (s_nfg s) = if pair_ignored h id then [] else selection (@lc_test O) (live id h).
Proof.
  intros HC HI H HK. assert (HZ : small C (length (sp_stored C W h))) by (intro X; congruence). rewrite (pairs_exact id HC H HK HZ), accepted_batch; auto.
Qed.
Theorem landmarks_group h (s : solver) rs l good : run C W h start = Ok s rs ->
  let L := recorded l (current C l (sp_sightings C W h)) in separate_group (length L) (agreeb (@lm_test O) L) good ->
  graph_lms C h l (s_nfg s) = at_places L (members (length L) good).
Proof. intros H L HS. rewrite (landmarks_exact C W _ l H). unfold accepted_sightings. apply selection_group. auto. Qed.
(** ** Measurements that agree with nobody, in any mode *)
Lemma agreeb_in test L i j : agreeb test L i j = true -> i < length L /\ j < length L.
Proof. unfold agreeb. destruct (nth_error L i) eqn:Ei, (nth_error L j) eqn:Ej; try discriminate. split; apply nth_error_Some; congruence. Qed.
Lemma backed_app test L T e : backed (agreeb test L) L e -> backed (agreeb test (L ++ T)) (L ++ T) e.
Proof.
  intros (i & j & x & E & F & A). destruct (agreeb_in _ _ _ _ A). exists i, j, x. rewrite nth_error_app1, agreeb_app by auto. auto.
Qed.
Lemma places_in L idx e : In e (at_places L idx) -> exists i x, In i idx /\ nth_error L i = Some x /\ fst x = e.
Proof.
  intro H. apply in_flat_map in H. destruct H as (i & Hi & H). destruct (nth_error L i) as [x|] eqn:E; [|destruct H]. destruct H as [H|[]]. eauto.
Qed.
Lemma agree_dec test L : some_agree (agreeb test L) \/ (forall i j, agreeb test L i j = false).
Proof.
  destruct (existsb (fun i => existsb (agreeb test L i) (seq 0 (length L))) (seq 0 (length L))) eqn:E.
  - left. apply existsb_exists in E. destruct E as (i & _ & E). apply existsb_exists in E. destruct E as (j & _ & E). exists i, j. auto.
  - right. intros i j. destruct (agreeb test L i j) eqn:A; auto. destruct (agreeb_in _ _ _ _ A) as [Hi Hj]. rewrite <- E. symmetry.
    apply existsb_exists. exists i. split; [apply in_seq; lia|]. apply existsb_exists. exists j. split; [apply in_seq; lia|auto].
Qed.

Lemma none_agree test L : existsb (fun i => existsb (agreeb test L i) (seq 0 (length L))) (seq 0 (length L)) = false -> ~ some_agree (agreeb test L).
Proof.
  intros E (i & j & A). destruct (agreeb_in _ _ _ _ A) as [Hi Hj]. apply diff_false_true. rewrite <- E. apply existsb_exists. exists i. split; [apply in_seq; lia|].
  apply existsb_exists. exists j. split; [apply in_seq; lia|auto].
Qed.

(** What is wanted of what is accepted from [L]. *)
Definition fair test L (acc : list bf) : Prop :=
  (some_agree (agreeb test L) -> 2 <= length acc /\ forall e, In e acc -> backed (agreeb test L) L e) /\
  ((forall i j, agreeb test L i j = false) -> acc = firstn 1 (map fst L)).

Lemma attempt_fair test L b c : c < length L -> 2 <= length (attempt (length L) (agreeb test L) b c) ->
  (2 <= length (at_places L (attempt (length L) (agreeb test L) b c))) /\ forall e, In e (at_places L (attempt (length L) (agreeb test L) b c)) -> backed (agreeb test L) L e.
Proof.
  intros Hc H2. assert (HA : forall i, In i (attempt (length L) (agreeb test L) b c) -> exists j, agreeb test L i j = true).
  { intros i Hi. apply (@attempt_backed (length L) (agreeb test L) (agreeb_sym test L) (agreeb_irr test L) b c i Hc H2 Hi). }
  split.
  - rewrite places_all; auto. intros i Hi. destruct (HA _ Hi) as [j A]. apply agreeb_in in A. tauto.
  - intros e He. apply places_in in He. destruct He as (i & x & Hi & E & F). destruct (HA _ Hi) as [j A]. exists i, j, x. auto.
Qed.
Lemma selection_fair test L : fair test L (selection test L).
Proof.
  split.
  - intros (i & j & A). destruct (agreeb_in _ _ _ _ A) as [Hi Hj]. unfold selection, greedy.
    assert (HC : forall c, In c (seq 0 (length L)) -> c < length L) by (intros c Hc; apply in_seq in Hc; lia).
    assert (X : 2 <= length (search (length L) (agreeb test L) (seq 0 (length L)) 0 [])).
    { destruct (@search_two (length L) (agreeb test L)) with (cs := seq 0 (length L)) (b := 0) (found := @nil nat) as [(X & _)|X]; auto; try lia.
      - intros; apply agreeb_sym.
      - intros _. exists i, j. split; auto. apply in_seq. lia. }
    destruct (search_attempt (length L) (agreeb test L) (seq 0 (length L)) 0 []) as [E|(c & b & Hc & _ & E)]; rewrite E in *; [cbn in X; lia|].
    apply attempt_fair; auto.
  - intro H. unfold selection, greedy. destruct L as [|x L]; auto. cbn [length seq]. rewrite search_first by auto. auto.
Qed.
Lemma new_fair test L new was : fair test L was -> fair test (L ++ new) (selection_new test (L ++ new) (length new) was).
Proof.
  intros (F1 & F2). unfold selection_new, greedy_new. rewrite app_length. replace (length L + length new - length new) with (length L) by lia. rewrite <- app_length.
  set (n := length (L ++ new)). set (f := agreeb test (L ++ new)). assert (HN : n = length L + length new) by apply app_length.
  assert (HC : forall c, In c (seq (length L) (length new)) -> c < n) by (intros c Hc; apply in_seq in Hc; lia).
  assert (HB : forall e, backed (agreeb test L) L e -> backed f (L ++ new) e) by (intros; apply backed_app; auto).
  split.
  - intro HS. assert (X : 2 <= length was \/ 2 <= length (search n f (seq (length L) (length new)) (length was) [])).
    { destruct (le_lt_dec 2 (length was)) as [Y|Y]; auto. destruct (@search_two n f) with (cs := seq (length L) (length new)) (b := length was) (found := @nil nat) as [(X & _)|X]; auto.
      - intros; apply agreeb_sym.
      - intros _. destruct HS as (i & j & A). destruct (agreeb_in _ _ _ _ A) as [Hi Hj]. fold n in Hi, Hj. destruct (le_lt_dec (length L) i) as [Ii|Ii].
        + exists i, j. split; auto. apply in_seq. lia.
        + destruct (le_lt_dec (length L) j) as [Ij|Ij].
          * exists j, i. split; [apply in_seq; lia|]. split; auto. unfold f. rewrite agreeb_sym. auto.
          * exfalso. unfold f in A. rewrite agreeb_app in A by auto. destruct F1; [exists i, j; auto|]. lia. }
    destruct (search_attempt n f (seq (length L) (length new)) (length was) []) as [E|(c & b & Hc & Hl & E)]; rewrite E in *.
    + destruct X as [X|X]; [|cbn in X; lia]. split; auto. intros e He. destruct (agree_dec test L) as [Y|Y]; [apply HB, F1; auto|].
      rewrite (F2 Y) in X. rewrite firstn_length in X. lia.
    + destruct (attempt n f b c) as [|i idx] eqn:EA; [cbn in Hl; lia|]. rewrite <- EA in *. apply attempt_fair; auto. fold n f. lia.
  - intro H. assert (H0 : forall i j, agreeb test L i j = false).
    { intros i j. destruct (agreeb test L i j) eqn:A; auto. destruct (agreeb_in _ _ _ _ A). rewrite <- (H i j). unfold f. symmetry. rewrite agreeb_app; auto. }
    rewrite (F2 H0). destruct L as [|x L].
    + cbn [map firstn length app]. destruct new as [|y new]; auto. cbn [length seq]. rewrite search_first by auto. auto.
    + cbn [map firstn length app]. rewrite search_none by auto. auto.
Qed.
Lemma accepted_fair id h : fair (@lc_test O) (live id h) (accepted C W id h).
Proof.
  induction h as [|o h IH] using rev_ind.
  { apply (selection_fair (@lc_test O) []). }
  rewrite accepted_snoc. unfold accept_step. destruct (takes_back C W id h o) eqn:ET.
  - destruct (length (live id h) <=? 2) eqn:E2; [|apply selection_fair]. apply Nat.leb_le in E2. rewrite <- (selection_few (@lc_test O)); [apply selection_fair|].
    rewrite live_one, ET. destruct (live id h) as [|a [|b [|c l]]]; cbn in *; lia.
  - destruct (filter _ (newly C W h o)) as [|y l] eqn:EN.
    + rewrite live_one, ET, EN, app_nil_r. auto.
    + destruct (c_incremental C); [|apply selection_fair]. rewrite live_one, ET, EN. apply new_fair. auto.
Qed.

Theorem pairs_backed h (s : solver) rs id : c_loop_check C = true -> run C W h start = Ok s rs -> records_sound C W h -> small C (length (sp_stored C W h)) ->
  pair_ignored h id = false -> some_agree (agreeb (@lc_test O) (live id h)) ->
  2 <= length (graph_lcs C h id (s_nfg s)) /\ forall e, In e (graph_lcs C h id (s_nfg s)) -> backed (agreeb (@lc_test O) (live id h)) (live id h) e.
Proof. intros HC H HK HZ HG HS. rewrite (pairs_exact id HC H HK HZ), HG. apply accepted_fair. auto. Qed.
Theorem pairs_alone h (s : solver) rs id : c_loop_check C = true -> run C W h start = Ok s rs -> records_sound C W h -> small C (length (sp_stored C W h)) ->
  pair_ignored h id = false -> ~ some_agree (agreeb (@lc_test O) (live id h)) -> graph_lcs C h id (s_nfg s) = firstn 1 (map fst (live id h)).
Proof.
  intros HC H HK HZ HG HS. rewrite (pairs_exact id HC H HK HZ), HG. apply accepted_fair. intros i j. destruct (agreeb _ _ i j) eqn:A; auto. destruct HS. exists i, j. auto.
Qed.
Theorem landmarks_backed h (s : solver) rs l : run C W h start = Ok s rs -> let L := recorded l (current C l (sp_sightings C W h)) in
  (some_agree (agreeb (@lm_test O) L) -> 2 <= length (graph_lms C h l (s_nfg s)) /\ forall e, In e (graph_lms C h l (s_nfg s)) -> backed (agreeb (@lm_test O) L) L e) /\
  (~ some_agree (agreeb (@lm_test O) L) -> graph_lms C h l (s_nfg s) = firstn 1 (map fst L)).
Proof.
  intros H L. rewrite (landmarks_exact C W _ l H). unfold accepted_sightings. fold L. destruct (selection_fair (@lm_test O) L) as [A B]. split; auto.
  intro HS. apply B. intros i j. destruct (agreeb _ _ i j) eqn:E; auto. destruct HS. exists i, j. auto.
Qed.
End X.
