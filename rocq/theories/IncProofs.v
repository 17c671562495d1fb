(** * Incremental selection over whole histories *)
From Coq Require Import Permutation.
From Verif Require Import Prelude Num Keys KMap UMap Geometry Factors Clique CliqueSpec CliqueRead CliqueHeu Pcm Solver ValuesProofs
  PcmSpec PcmProofs PcmInv PcmStore HistSpec StoreSpec SolverProofs HistProofs GraphProofs UpdateProofs StoreProofs AcceptProofs LiveProofs
  StoreThms ItemProofs SafeProofs RemoveSpec RemoveExact RecordProofs IncSpec.
Set Implicit Arguments.
Local Open Scope nat_scope.

(** ** The incremental search *)
Theorem find_inc_some m num_new : (Z.of_nat (m_rows m) < size_t_mod)%Z -> 1 <= num_new <= m_rows m ->
  forall data, find_max_clique_heu_inc m num_new 0 <> Val (0%Z, data).
Proof.
  intros Hn Hk data. unfold find_max_clique_heu_inc. destruct (read_eigen_repr m) as (g & E & R).
  rewrite E. cbn [rbind].
  destruct (max_clique_heu_inc_ok R 0 Hn (proj2 Hk)) as (mc & data' & E' & _ & H & _).
  rewrite E'. cbn [rbind]. assert (1 <= mc)%Z.
  { apply (H (m_rows m - 1)); [apply in_seq|]; lia. }
  destruct (Z.ltb_spec (Z.of_nat 0) mc); [|lia]. intro X. injection X as X _. lia.
Qed.

Lemma find_inc_one m num_new prev : m_rows m = 1 -> m_cols m = 1 -> 1 <= num_new -> (Z.of_nat num_new < size_t_mod)%Z ->
  exists data, find_max_clique_heu_inc m num_new prev =
    Val (if (num_new =? 1) && (prev =? 0) then 1%Z else 0%Z, data) /\ ((num_new =? 1) && (prev =? 0) = true -> data = [0]).
Proof.
  intros Hr Hc Hn Hs. destruct (Nat.eqb_spec num_new 1) as [->|N1].
  - destruct m as [r c f]. cbn in Hr, Hc. subst r c. destruct prev as [|prev].
    + exists [0]. split; auto.
    + exists []. split; [|discriminate]. unfold find_max_clique_heu_inc. change (read_eigen (Mat 1 1 f)) with (Val (Graph [0; 0] [] 0)).
      cbn [rbind]. unfold max_clique_heu_inc. change (heu_start _ _) with 0%Z. cbn [g_vs length Nat.sub Z.to_nat seq].
      change (0 <? Z.of_nat 1)%Z with true. cbn [rfold rbind]. unfold heu_step. cbn -[Z.of_nat Z.ltb].
      match goal with |- context [(?a <? ?b)%Z] => destruct (Z.ltb_spec a b); [|lia] end. cbn -[Z.of_nat Z.ltb]. rewrite Z.ltb_irrefl. auto.
  - exists []. cbn [andb]. split; [|discriminate]. apply find_inc_wrap; lia.
Qed.

Section Inc.
Variable O : tops.
Variable C : config.
Variable W : soracles O.
Notation bf := (bf O).
Notation T := (t_T O).
Notation pcm := (pcm O).
Notation meas := (meas O).
Notation values := (values O).
Notation sp := (c_special C).
Notation refs := (N -> key -> T).
Notation op := (op O).
Notation solver := (solver O).
Notation start := (@solver_init O true).
Notation lc_get := (uget oid_eqb (@meas_default O)).
Notation lone := (@lone O C W).
Notation new_of := (@new_of O C W).
Notation live_of := (@live_of O C W).
Notation sp_items := (@sp_items O C W).

(** ** How many loop closures of a pair a call has stored *)
Fixpoint uniq (nn : numnew) : Prop :=
  match nn with [] => True | (k, _) :: r => lc_find k r = None /\ uniq r end.

Lemma find_app {V} id (a b : umap obsid V) : lc_find id (a ++ b) = match lc_find id a with Some v => Some v | None => lc_find id b end.
Proof. induction a as [|[k v] a IH]; cbn; auto. destruct (oid_eqb id k); auto. Qed.

Lemma uniq_app_one nn id n : uniq nn -> lc_find id nn = None -> uniq (nn ++ [(id, n)]).
Proof.
  induction nn as [|[k v] nn IH]; cbn; auto. intros (H1 & H2) H. destruct (oid_eqb id k) eqn:E; [discriminate|].
  split; auto. rewrite find_app, H1. cbn. rewrite oid_eqb_sym, E. auto.
Qed.
Lemma uniq_set nn id n n' : uniq nn -> lc_find id nn = Some n' -> uniq (lc_set id n nn).
Proof.
  induction nn as [|[k v] nn IH]; cbn; [discriminate|]. intros (H1 & H2) H. destruct (oid_eqb id k) eqn:E; cbn; auto.
  split; auto. rewrite oid_find_set. rewrite oid_eqb_sym, E. auto.
Qed.
Lemma uniq_incr nn id : uniq nn -> uniq (nn_incr id nn).
Proof.
  intro H. unfold nn_incr. destruct (lc_find id nn) eqn:E; [eapply uniq_set; eauto|apply uniq_app_one; auto].
Qed.

Definition cnt (id : obsid) (nn : numnew) : nat := match lc_find id nn with Some n => n | None => 0 end.
Lemma find_incr nn id id' : lc_find id' (nn_incr id nn) = if oid_eqb id' id then Some (S (cnt id nn)) else lc_find id' nn.
Proof.
  unfold nn_incr, cnt. destruct (lc_find id nn) eqn:E.
  - rewrite oid_find_set. auto.
  - rewrite find_app. cbn. destruct (oid_eqb id' id) eqn:E2; [rewrite (oid_find_congr _ _ _ E2), E|destruct (lc_find id' nn)]; auto.
Qed.

Definition plus_new (n : nat) (o : option nat) : option nat :=
  match n with 0 => o | S _ => Some (match o with Some c => c | None => 0 end + n) end.

Lemma parse_count vals bs (ref : refs) : forall (p p' : pcm) nn nn', rfold (parse_one C vals) bs (p, nn) = Val (p', nn') ->
  (forall c k, tref p c k = ref c k) -> uniq nn -> uniq nn' /\
  forall id, lc_find id nn' = plus_new (length (filter (of_pair id) (filter (stores C (fun k => kmem k vals) ref) bs))) (lc_find id nn) /\
    me_cons (lc_get id (p_lcs p')) = me_cons (lc_get id (p_lcs p)).
Proof.
  induction bs as [|b bs IH]; intros p p' nn nn' H HR HU; cbn [rfold] in H.
  - injection H as <- <-. split; [auto|]. intro id. split; reflexivity.
  - destruct (parse_one C vals b (p, nn)) as [[p1 nn1]|] eqn:E; cbn [rbind] in H; [|discriminate].
    apply parse_one_inv in E. destruct E as (o & Hp & ->).
    destruct (parsed_stores _ Hp HR) as (ES & _).
    apply IH in H.
    2:{ intros c k. rewrite (parsed_tref Hp). auto. }
    2:{ destruct o; auto. apply uniq_incr. auto. }
    destruct H as (U & H). split; auto. intro id. destruct (H id) as (H1 & H2). cbn [filter]. rewrite ES, H1, H2.
    assert (X : me_cons (lc_get id (p_lcs p1)) = me_cons (lc_get id (p_lcs p))).
    { inversion Hp; subst; auto. unfold store_lc. cbn [p_lcs set_trajs set_total set_order set_lcs]. rewrite oid_get_set.
      destruct (oid_eqb id (pair_of b)) eqn:E; auto. cbn [me_cons]. unfold uget. rewrite (oid_find_congr _ _ _ E). auto. }
    split; auto. destruct o as [id0|]; auto. assert (id0 = pair_of b) as -> by (inversion Hp; auto). rewrite find_incr.
    cbn [filter]. unfold of_pair at 2. change (chr (b_from b), chr (b_to b)) with (pair_of b). rewrite (oid_eqb_sym (pair_of b)).
    destruct (oid_eqb id (pair_of b)) eqn:E; auto. cbn [length plus_new]. unfold cnt. rewrite <- (oid_find_congr _ _ _ E).
    destruct (lc_find id nn); destruct (length _); cbn [plus_new]; f_equal; lia.
Qed.

Lemma inc_fold_get nn : forall lcs lcs', uniq nn ->
  rfold (fun '(id, nw) lcs => let* m' := inc_inliers nw (lc_get id lcs) in Val (lc_set id m' lcs)) nn lcs = Val lcs' ->
  forall id, match lc_find id nn with
             | None => lc_get id lcs' = lc_get id lcs
             | Some n => inc_inliers n (lc_get id lcs) = Val (lc_get id lcs')
             end.
Proof.
  induction nn as [|[k n] nn IH]; intros lcs lcs' U H id; cbn [rfold] in H.
  - injection H as <-. reflexivity.
  - destruct (inc_inliers n (lc_get k lcs)) as [m'|] eqn:E; cbn [rbind] in H; [|discriminate].
    destruct U as (U1 & U2). specialize (IH _ _ U2 H id). cbn [ufind]. rewrite oid_get_set in IH.
    destruct (oid_eqb id k) eqn:EK; auto. rewrite (oid_find_congr _ _ nn EK), U1 in IH. rewrite IH.
    unfold uget in *. rewrite (oid_find_congr _ _ lcs EK). auto.
Qed.

Lemma inc_keeps n (m m' : meas) : inc_inliers n m = Val m' -> me_factors m' = me_factors m /\ me_adj m' = me_adj m.
Proof. intro H. apply inc_inliers_reselected in H. destruct H as (H1 & H2 & _). auto. Qed.

(** What a call does to the accepted loop closures of a pair. *)
Definition reselects (N : nat) (m m1 : meas) : Prop :=
  match N with
  | 0 => me_cons m1 = me_cons m
  | S _ => inc_inliers N (Meas (me_factors m1) (me_cons m) (me_adj m1)) = Val m1
  end.

Lemma call_inc fs nv (p p' : pcm) nfg nfg' v v' b (ref : refs) known :
  remove_outliers C (so_pcm W) fs nv (PSt p nfg v) = Ok (PSt p' nfg' v') b -> c_incremental C = true ->
  (forall c k, tref p' c k = ref c k) -> (forall k, known k = kmem k v') ->
  forall id, reselects (length (filter (of_pair id) (filter (stores C known ref) (filter (sp_candidate sp nv) (betweens fs)))))
               (lc_get id (p_lcs p)) (lc_get id (p_lcs p')).
Proof.
  intros H HI HR HK id. pose proof (remove_outliers_ok C W _ _ _ _ _ H) as (_ & _ & _ & KV & _).
  unfold remove_outliers in H. cbn [ps_pcm ps_nfg ps_vals] in H.
  destruct (vinsert_all nv v) as [vs u| |] eqn:EV; try discriminate.
  assert (KVS : forall k, known k = kmem k vs).
  { intro k. rewrite HK, KV. symmetry. apply vinsert_all_ok in EV. destruct EV as (EV & _). unfold kmem. rewrite EV. destruct (kfind k v); auto. }
  replace (filter (stores C known ref) (filter (sp_candidate sp nv) (betweens fs)))
    with (filter (stores C (fun k => kmem k vs) ref) (filter (sp_candidate sp nv) (betweens fs)))
    by (apply filter_ext; intro x; unfold stores; rewrite !KVS; auto).
  destruct fs as [|of fs].
  { injection H as <- _ _ _. reflexivity. }
  destruct (proc_factors C nv vs (of :: fs) p ([], false)) as [p1 [lcs opt]| |] eqn:EP; try discriminate.
  apply proc_factors_frame in EP. destruct EP as (_ & _ & P3 & P4 & _ & _ & _ & _ & P9 & _). cbn [fst app] in P9.
  match type of H with context [match ?r with Bad _ => _ | Val _ => _ end] => destruct r as [[p3 opt']|] eqn:ER end; [|discriminate].
  assert (FIN : p_lcs p' = p_lcs p3 /\ p_trajs p' = p_trajs p3).
  { destruct (c_align C && (1 <? length (p_robots p3))).
    - destruct (align _ _ vs) as [vs' []| |]; try discriminate. injection H as <- _ _ _. auto.
    - injection H as <- _ _ _. auto. }
  destruct FIN as (F1 & F3). rewrite F1. clear H.
  destruct lcs as [|b0 lcs].
  { injection ER as <- <-. rewrite P3. rewrite <- P9. reflexivity. }
  destruct (parse_all C vs (b0 :: lcs) p1) as [[p2 nn]|] eqn:EA; cbn [rbind] in ER; [|discriminate].
  rewrite HI in ER. destruct (find_inliers_inc nn p2) as [q|] eqn:EF; cbn [rbind] in ER; [|discriminate]. injection ER as <- <-.
  pose proof (parse_all_inv _ _ _ _ EA) as (HP & HA).
  assert (HS : selected p2 q) by (eapply find_inliers_inc_selected; eauto).
  assert (T1 : forall c k, tref p1 c k = ref c k).
  { intros c k. pose proof (parsed_list_ok HP) as (_ & _ & _ & _ & _ & T1 & _).
    rewrite <- T1, <- HR. symmetry. apply tref_trajs. pose proof (selected_ok C HS) as (_ & _ & _ & _ & _ & _ & S7 & _). congruence. }
  unfold parse_all in EA. destruct (@parse_count vs (b0 :: lcs) ref p1 p2 [] nn EA T1 I) as (U & X). destruct (X id) as (X1 & X2). clear X.
  unfold find_inliers_inc in EF.
  match type of EF with context [rfold ?f nn (p_lcs p2)] => destruct (rfold f nn (p_lcs p2)) as [lcs'|] eqn:E1 end; cbn [rbind] in EF; [|discriminate].
  destruct (umapM (heu_inliers (O:=O)) (p_lms p2)) as [lms|] eqn:E2; cbn [rbind] in EF; [|discriminate].
  injection EF as <-. cbn [p_lcs set_good set_lms set_lcs].
  pose proof (@inc_fold_get nn _ _ U E1 id) as G. rewrite X1 in G. rewrite P9 in G.
  cbn [ufind] in G. unfold reselects.
  match type of G with context [plus_new ?k _] => destruct k as [|n] eqn:EN end.
  - cbn in G. rewrite G, X2, P3. auto.
  - cbn in G. pose proof (inc_keeps _ _ G) as (G1 & G2). rewrite G1, G2, <- P3, <- X2. rewrite <- G. f_equal. destruct (lc_get id (p_lcs p2)); auto.
Qed.
(** ** One call, seen from a robot pair *)
Notation items := (list (bf * refs)).

Lemma F2_len {A B} (R : A -> B -> Prop) l l' : Forall2 R l l' -> length l = length l'.
Proof. induction 1; cbn; auto. Qed.

Lemma agree_lt (test : bf * refs -> bf * refs -> option bool) (L : items) i j : agree test L i j -> i < length L /\ j < length L /\ i <> j.
Proof.
  intros (x & y & Hx & Hy & H). split; [apply nth_error_Some; congruence|]. split; [apply nth_error_Some; congruence|].
  destruct H as [[H _]|[H _]]; lia.
Qed.
Lemma agree_app test (L N : items) i j : i < length L -> j < length L -> agree test (L ++ N) i j <-> agree test L i j.
Proof. intros Hi Hj. unfold agree. rewrite !nth_error_app1 by auto. tauto. Qed.

Lemma star_intro test (L : items) idx cs : Forall2 (fun i b => nth_error (map fst L) i = Some b) idx cs ->
  (exists c l, idx = c :: l /\ forall x, In x l -> agree test L c x) ->
  ((forall x y z, agree test L x y -> agree test L y z -> x <> z -> agree test L x z) ->
     NoDup idx /\ (forall x y, In x idx -> In y idx -> x <> y -> agree test L x y) /\
     forall idx', NoDup idx' -> (forall x, In x idx' -> x < length L) ->
       (forall x y, In x idx' -> In y idx' -> x <> y -> agree test L x y) -> length idx' <= length idx) ->
  star_of test L cs.
Proof.
  intros HF HS HT. exists idx. split; auto. split; auto. split; [|split; auto].
  - destruct HS as (c & l & -> & HS). intro H. destruct l as [|x [|y l]]; cbn in H; [| |lia].
    + constructor; [intros []|constructor].
    + destruct (agree_lt (HS x (or_introl eq_refl))) as (_ & _ & N). constructor; [|constructor; [intros []|constructor]].
      intros [<-|[]]. auto.
  - intro HA. destruct HT as (T1 & T2 & T3).
    { intros x y z X Y N. apply HA; auto; [apply agree_lt in X|apply agree_lt in Y]; tauto. }
    assert (IB : forall x, In x idx -> x < length L).
    { intros x Hx. destruct (In_nth_error _ _ Hx) as (n & Hn). clear -HF Hn. revert n Hn.
      induction HF as [|i b idx cs Hb HF IH]; intros [|n] Hn; cbn in Hn; try discriminate; eauto.
      injection Hn as <-. rewrite <- (map_length fst). apply nth_error_Some. congruence. }
    assert (LE : length (seq 0 (length L)) <= length idx).
    { apply T3; [apply seq_NoDup|intros x Hx; apply in_seq in Hx; lia|].
      intros x y Hx Hy N. apply in_seq in Hx. apply in_seq in Hy. apply HA; lia. }
    apply (@NoDup_perm_select _ _ idx); auto. rewrite map_length.
    apply NoDup_Permutation_bis; auto. intros x Hx. apply in_seq. specialize (IB x Hx). lia.
Qed.

Lemma inc_star test (L N : items) m cs (m1 : meas) : faithful test (L ++ N) m -> N <> [] ->
  (L = [] -> cs = []) -> (L <> [] -> star_of test L cs) -> (Z.of_nat (length (L ++ N)) < size_t_mod)%Z ->
  inc_inliers (length N) (Meas (map fst (L ++ N)) cs m) = Val m1 ->
  star_of test (L ++ N) (me_cons m1) /\
  (me_cons m1 = cs \/ length cs < length (me_cons m1) /\ exists b, hd_error (me_cons m1) = Some b /\ In b (map fst N)).
Proof.
  intros HF HN HL0 HL HZ H. pose proof HF as (F1 & F2 & _). unfold inc_inliers in H. cbn [me_adj me_cons me_factors] in H.
  assert (HE : forall x y, edge m x y <-> agree test (L ++ N) x y) by (intros; apply faithful_edge; auto).
  assert (Hn : 1 <= length N) by (destruct N; [congruence|cbn; lia]).
  rewrite app_length in *. assert (Hk : length N <= m_rows m) by lia. rewrite <- F1 in HZ.
  assert (TG : (forall x y z, agree test (L ++ N) x y -> agree test (L ++ N) y z -> x <> z -> agree test (L ++ N) x z) -> transitive_graph m).
  { intros Ht x y z A B D. apply HE. apply (Ht x y z); auto; apply HE; auto. }
  assert (OLD : (forall x y z, agree test (L ++ N) x y -> agree test (L ++ N) y z -> x <> z -> agree test (L ++ N) x z) ->
     forall idx', NoDup idx' -> (forall x, In x idx' -> x < length L) ->
       (forall x y, In x idx' -> In y idx' -> x <> y -> agree test (L ++ N) x y) -> length idx' <= length cs).
  { intros Ht idx' D1 D2 D3. destruct L as [|x0 L0].
    - destruct idx' as [|x idx']; [cbn; lia|]. specialize (D2 x (or_introl eq_refl)). cbn in D2. lia.
    - destruct (HL ltac:(discriminate)) as (idx & S1 & _ & _ & S4 & _). pose proof (F2_len S1) as E.
      rewrite <- E. apply S4; auto.
      + intros x y z X Y Z. pose proof (agree_lt X) as (X1 & X2 & _). pose proof (agree_lt Y) as (Y1 & Y2 & _).
        apply agree_app with (N := N); auto. apply (Ht x y z); auto; apply agree_app; auto.
      + intros x y X Y Z. apply agree_app with (N := N); auto. }
  assert (NEW : forall idx', NoDup idx' -> (forall x, In x idx' -> x < length (L ++ N)) ->
       (forall x y, In x idx' -> In y idx' -> x <> y -> agree test (L ++ N) x y) ->
       (forall x, In x idx' -> x < length L) \/ exists x, In x idx' /\ m_rows m - length N <= x < m_rows m /\
          length idx' <= S (length (read_nodelist m x))).
  { intros idx' D1 D2 D3. rewrite app_length in D2.
    destruct (Forall_dec (fun x => x < length L) (fun x => lt_dec x (length L)) idx') as [X|X].
    - left. rewrite Forall_forall in X. auto.
    - right. apply Exists_Forall_neg in X; [|intro x; destruct (lt_dec x (length L)); auto].
      apply Exists_exists in X. destruct X as (x & X1 & X2). exists x. split; auto. pose proof (D2 x X1). split; [lia|].
      apply clique_le_group; auto. split; auto. split; [intros; rewrite F1; auto|]. intros. apply HE. auto. }
  destruct (@find_inc_ok m (length N) (length cs) HZ Hk) as [(data & E)|(picks & data & c & E & Hgt & _ & _ & Hc & HSP & Hhd)];
    rewrite E in H; cbn [rbind] in H.
  - cbn in H. injection H as <-. cbn [me_cons]. split; auto.
    assert (L <> []) as HLn.
    { intros ->. rewrite (HL0 eq_refl) in E. eapply find_inc_some; [exact HZ| |exact E]. lia. }
    specialize (HL HLn). destruct HL as (idx & S1 & (c & l & S2 & S3) & _ & S4 & _).
    assert (IB : forall x, In x idx -> x < length L).
    { intros x Hx. destruct (In_nth_error _ _ Hx) as (n & Hn'). clear -S1 Hn'. revert n Hn'.
      induction S1 as [|i b idx cs Hb HF IH]; intros [|n] Hn; cbn in Hn; try discriminate; eauto.
      injection Hn as <-. rewrite <- (map_length fst). apply nth_error_Some. congruence. }
    apply star_intro with idx.
    + eapply Forall2_In_imp; [|exact S1]. intros i b Hi Hb. rewrite map_app, nth_error_app1; auto. rewrite map_length. auto.
    + exists c, l. split; auto. intros x Hx. apply agree_app; auto; apply IB; rewrite S2; [left|right]; auto.
    + intro Ht. destruct S4 as (T1 & T2 & T3).
      { intros x y z X Y Z. pose proof (agree_lt X) as (X1 & X2 & _). pose proof (agree_lt Y) as (Y1 & Y2 & _).
        apply agree_app with (N := N); auto. apply (Ht x y z); auto; apply agree_app; auto. }
      split; auto. split; [intros x y X Y Z; apply agree_app; auto|]. intros idx' D1 D2 D3.
      pose proof (F2_len S1) as EL. destruct (NEW idx' D1 D2 D3) as [X|(x & X1 & X2 & X3)].
      * rewrite EL. apply OLD; auto.
      * destruct (@find_inc_trans m (length N) (length cs) (TG Ht) HZ Hk) as [(d & _ & X)|(c' & d & E' & _)]; [|rewrite E in E'; discriminate].
        specialize (X x X2). lia.
  - destruct (Z.of_nat (length picks) =? 0)%Z eqn:E0; [apply Z.eqb_eq in E0; lia|].
    destruct (select _ _ _) as [cs2|] eqn:ES; cbn [rbind] in H; [|discriminate]. injection H as <-. cbn [me_cons].
    apply select_inv in ES. destruct ES as (_ & Hlen & ES). rewrite Nat2Z.id in *.
    destruct HSP as (_ & c' & l & EF & Hc' & Hs).
    assert (c' = c) as ->.
    { destruct data as [|d0 data]; [rewrite firstn_nil in EF; discriminate|]. cbn in Hhd. injection Hhd as ->.
      destruct (length picks); cbn in EF; [discriminate|]. congruence. }
    pose proof (F2_len ES) as EL. rewrite firstn_length_le in EL by auto. split.
    + apply star_intro with (firstn (length picks) data); auto.
      { exists c, l. split; auto. intros x Hx. apply HE. auto. }
      intro Ht. destruct (@find_inc_trans m (length N) (length cs) (TG Ht) HZ Hk) as [(d & E' & _)|(c2 & d & E' & G1 & G2 & G3 & G4)];
        rewrite E in E'; injection E' as K1 K2; [lia|]. subst d. assert (EK : length picks = S (length (read_nodelist m c2))) by lia.
      rewrite EK, G3. destruct (@group_clique m c2 (TG Ht) ltac:(lia)) as ((Q1 & Q2 & Q3) & _). split; auto.
      split; [intros x y X Y Z; apply HE; auto|]. intros idx' D1 D2 D3. cbn [length].
      destruct (NEW idx' D1 D2 D3) as [X|(x & X1 & X2 & X3)].
      * specialize (OLD Ht idx' D1 X D3). lia.
      * specialize (G4 x X2). lia.
    + right. split; [lia|]. rewrite EF in ES. inversion ES as [|? b ? ? Hb HR]; subst. exists b. split; auto.
      rewrite map_app, nth_error_app2 in Hb by (rewrite map_length; lia). eapply nth_error_In; eauto.
Qed.
(** ** Whole histories *)
Definition sound (h : list op) : Prop := c_loop_check C = true -> records_sound C W h.
Lemma sound_prefix h o : sound (h ++ [o]) -> sound h.
Proof.
  intros H HC. destruct (H HC) as [X|X]; [left; auto|right]. intros h1 o' h2 id E. apply (X h1 o' (h2 ++ [o]) id). rewrite E, <- app_assoc. auto.
Qed.

Lemma drop_first_length {A} (F : A -> bool) l : length (drop_first F l) <= length l.
Proof. induction l as [|x l IH]; cbn; auto. destruct (F x); cbn; lia. Qed.
Lemma items_le h : length (sp_items h) <= length (sp_stored C W h).
Proof.
  induction h as [|o h IH] using rev_ind; auto. rewrite sp_items_snoc, sp_stored_snoc, app_length.
  assert (D : forall F, length (drop_last F (sp_items h)) <= length (sp_items h)).
  { intro F. unfold drop_last. rewrite rev_length, drop_first_length, rev_length. auto. }
  destruct o; cbn [items_step]; rewrite ?app_length; try lia.
  - specialize (D (fun x => of_pair (a, b) (fst x))). lia.
  - destruct (rev (sp_order C W h)) as [|id l]; [lia|]. specialize (D (fun x => of_pair id (fst x))). lia.
Qed.
Lemma filter_le {A} (F : A -> bool) l : length (filter F l) <= length l.
Proof. induction l as [|x l IH]; cbn; auto. destruct (F x); cbn; lia. Qed.

Lemma live_snoc id h o : is_removal o = false ->
  live_items C W id (h ++ [o]) = live_items C W id h ++ filter (fun x => of_pair id (fst x)) (newly C W h o).
Proof.
  intro H. unfold live_items. fold (sp_items (h ++ [o])) (sp_items h). rewrite sp_items_snoc.
  destruct o; try discriminate; cbn [items_step]; rewrite filter_app; auto.
Qed.
Lemma new_of_map id h o : new_of id h o = map fst (filter (fun x => of_pair id (fst x)) (newly C W h o)).
Proof. unfold RemoveSpec.new_of. symmetry. apply filter_fst. Qed.
Lemma live_of_map id h : live_of id h = map fst (live_items C W id h).
Proof. unfold RemoveSpec.live_of, live_items. fold (sp_items h). rewrite <- sp_items_live. symmetry. apply filter_fst. Qed.

Lemma call_step h o fs vs (s' : solver) rs : run C W (h ++ [o]) start = Ok s' rs -> call_of o = Some (fs, vs) -> c_incremental C = true ->
  exists s rs0 p p', run C W h start = Ok s rs0 /\ s_pcm s = Some p /\ s_pcm s' = Some p' /\
    forall id, reselects (length (new_of id h o)) (lc_get id (p_lcs p)) (lc_get id (p_lcs p')).
Proof.
  intros H Hc HI. destruct (@run_call _ C W _ _ _ _ _ _ H Hc) as (s & rs0 & p & p' & nfg' & v' & b & A1 & A2 & A3 & A4 & A5 & A6).
  exists s, rs0, p, p'. split; auto. split; [apply (hi_pcm A2)|]. split; auto. intro id.
  pose proof (@call_inc _ _ _ _ _ _ _ _ _ _ _ A4 HI A5 A6 id) as X.
  replace (new_of id h o) with (filter (of_pair id) (filter (stores C (knows (h ++ [o])) (refs_after C W (h ++ [o])))
     (filter (sp_candidate sp vs) (betweens fs)))); auto.
  unfold RemoveSpec.new_of, newly. rewrite Hc, map_map. cbn [fst]. rewrite map_id. auto.
Qed.

(** Not incremental: nothing is stored and the records stay, or everything is selected anew. *)
Lemma call_heu h o fs vs (s' : solver) rs : run C W (h ++ [o]) start = Ok s' rs -> call_of o = Some (fs, vs) -> c_incremental C = false ->
  exists s rs0 p p', run C W h start = Ok s rs0 /\ s_pcm s = Some p /\ s_pcm s' = Some p' /\
    (p_lcs p' = p_lcs p /\ newly C W h o = [] \/ settled_lc C p').
Proof.
  intros H Hc HI. destruct (@run_call _ C W _ _ _ _ _ _ H Hc) as (s & rs0 & p & p' & nfg' & v' & b & A1 & A2 & A3 & A4 & A5 & A6).
  exists s, rs0, p, p'. split; auto. split; [apply (hi_pcm A2)|]. split; auto.
  apply remove_outliers_inv in A4. cbn [ps_pcm ps_nfg ps_vals] in A4. destruct A4 as (vals & u & q & EV & HRO & _ & _ & HN & HA).
  assert (F1 : p_lcs p' = p_lcs q).
  { destruct (c_align C).
    - destruct (HA eq_refl) as [[-> _]|(_ & _ & -> & _)]; auto.
    - specialize (HN eq_refl). injection HN as -> _. auto. }
  unfold settled_lc. rewrite F1. unfold newly. rewrite Hc.
  inversion HRO as [X0|p1 opt Hne EP|p1 lcs opt p2 p3 Hne EP Hlc HP HSel HFI]; subst.
  - left. auto.
  - left. apply proc_factors_frame in EP. destruct EP as (_ & _ & P3 & _ & _ & _ & _ & _ & P9 & _). cbn in P9. rewrite <- P9. auto.
  - right. eapply find_inliers_settled. apply HFI; auto.
Qed.

Lemma star_one (test : bf * refs -> bf * refs -> option bool) x : star_of test [x] [fst x].
Proof.
  apply star_intro with (idx := [0]).
  - repeat constructor.
  - exists 0, []. split; auto. intros ? [].
  - intros _. split; [repeat constructor; intros []|]. split; [intros x' y [<-|[]] [<-|[]] X; congruence|].
    intros idx' D1 D2 _. cbn [length] in *. destruct idx' as [|i [|j l]]; cbn; auto. inversion D1 as [|? ? N1 N2]; subst. exfalso. apply N1.
    pose proof (D2 i ltac:(left; auto)). pose proof (D2 j ltac:(right; left; auto)). assert (i = j) as -> by lia. left. auto.
Qed.

(** The accepted loop closures of a pair given those stored. *)
Definition picked (h : list op) (p : pcm) (id : obsid) : Prop :=
  if c_loop_check C
  then (live_items C W id h = [] -> me_cons (lc_get id (p_lcs p)) = []) /\
       (live_items C W id h <> [] -> star_of (@lc_test O) (live_items C W id h) (me_cons (lc_get id (p_lcs p))))
  else if c_incremental C
  then me_cons (lc_get id (p_lcs p)) = (if lone id h then firstn 1 (map fst (live_items C W id h)) else []) /\
       (lone id h = true -> live_items C W id h <> [])
  else me_cons (lc_get id (p_lcs p)) = map fst (live_items C W id h).

Lemma lone_from_snoc id done todo o was :
  lone_from C W id done (todo ++ [o]) was = lone_step C W id (done ++ todo) o (lone_from C W id done todo was).
Proof.
  revert done was. induction todo as [|x todo IH]; intros done was; cbn [lone_from app].
  - rewrite app_nil_r. auto.
  - rewrite IH, <- app_assoc. auto.
Qed.
Lemma lone_snoc id h o : lone id (h ++ [o]) = lone_step C W id h o (lone id h).
Proof. unfold IncSpec.lone. rewrite lone_from_snoc. auto. Qed.

Lemma map_fst_nil {A B} (l : list (A * B)) : map fst l = [] <-> l = [].
Proof. destruct l; cbn; split; auto; discriminate. Qed.

Lemma picked_call h o (p p' : pcm) id fs vs : call_of o = Some (fs, vs) -> c_incremental C = true ->
  me_factors (lc_get id (p_lcs p')) = map fst (live_items C W id (h ++ [o])) ->
  (c_loop_check C = true -> new_of id h o <> [] -> faithful (@lc_test O) (live_items C W id (h ++ [o])) (me_adj (lc_get id (p_lcs p')))) ->
  (c_loop_check C = false -> m_rows (me_adj (lc_get id (p_lcs p'))) = 1 /\ m_cols (me_adj (lc_get id (p_lcs p'))) = 1) ->
  reselects (length (new_of id h o)) (lc_get id (p_lcs p)) (lc_get id (p_lcs p')) ->
  (Z.of_nat (length (sp_stored C W (h ++ [o]))) < size_t_mod)%Z -> picked h p id -> picked (h ++ [o]) p' id /\
  (c_loop_check C = true -> me_cons (lc_get id (p_lcs p')) = me_cons (lc_get id (p_lcs p)) \/
     length (me_cons (lc_get id (p_lcs p))) < length (me_cons (lc_get id (p_lcs p'))) /\
     exists b, hd_error (me_cons (lc_get id (p_lcs p'))) = Some b /\ In b (new_of id h o)).
Proof.
  intros Hc HI EF J' HA HR HZ HP. assert (NR : is_removal o = false) by (destruct o; try discriminate; auto).
  assert (NT : target C W h o = None) by (destruct o; try discriminate; auto).
  pose proof (live_snoc id h o NR) as EL. set (N := filter (fun x => of_pair id (fst x)) (newly C W h o)) in *.
  assert (EN : new_of id h o = map fst N) by apply new_of_map. clearbody N. rewrite EN, map_length in *.
  assert (LEN : (Z.of_nat (length (live_items C W id h ++ N)) < size_t_mod)%Z).
  { rewrite <- EL. pose proof (items_le (h ++ [o])) as X. pose proof (filter_le (fun x => of_pair id (fst x)) (sp_items (h ++ [o]))) as Y.
    unfold live_items. fold (sp_items (h ++ [o])). lia. }
  unfold picked in *. rewrite HI in *. destruct (length N) as [|n] eqn:ELN.
  - assert (N0 : N = []) by (apply length_zero_iff_nil; auto). subst N. rewrite app_nil_r in *. cbn [reselects] in HR. rewrite EL, HR.
    split; [|auto]. rewrite lone_snoc. unfold lone_step. rewrite NT, EN. cbn [map length Nat.eqb]. rewrite orb_false_r. exact HP.
  - cbn [reselects] in HR. rewrite <- ELN in HR.
    assert (NN : N <> []) by (intro X; rewrite X in ELN; discriminate).
    destruct (c_loop_check C) eqn:HC.
    + destruct HP as (P1 & P2). rewrite EF, EL in HR.
      assert (HF : faithful (@lc_test O) (live_items C W id h ++ N) (me_adj (lc_get id (p_lcs p')))).
      { rewrite <- EL. apply J'; auto. destruct N; [congruence|discriminate]. }
      destruct (@inc_star _ _ _ _ _ _ HF NN P1 P2 LEN HR) as (X1 & X2). rewrite EL. split; [split; [|auto]|auto].
      intro X. apply app_eq_nil in X. tauto.
    + split; [|discriminate]. destruct (HA eq_refl) as (HA1 & HA2). destruct HP as (P1 & P2).
      rewrite lone_snoc. unfold lone_step. rewrite NT, EN, map_length. unfold inc_inliers in HR. cbn [me_adj me_cons me_factors] in HR.
      destruct (@find_inc_one (me_adj (lc_get id (p_lcs p'))) (length N) (length (me_cons (lc_get id (p_lcs p)))) HA1 HA2) as (data & E & E1).
      { lia. } { rewrite app_length in LEN. lia. }
      rewrite E in HR. cbn [rbind] in HR. rewrite EL. split.
      2:{ intros _ X. apply app_eq_nil in X. tauto. }
      destruct (lone id h) eqn:ELo.
      * specialize (P2 eq_refl). cbn [orb].
        assert (XX : (length (me_cons (lc_get id (p_lcs p))) =? 0) = false).
        { rewrite P1. destruct (live_items C W id h); [congruence|]. reflexivity. }
        rewrite XX, andb_false_r in HR. cbn in HR. injection HR as HR. apply (f_equal (@me_cons O)) in HR. cbn [me_cons] in HR. rewrite <- HR, P1.
        destruct (live_items C W id h); [congruence|]. reflexivity.
      * cbn [orb]. assert (XX : (length (me_cons (lc_get id (p_lcs p))) =? 0) = true) by (rewrite P1; reflexivity).
        rewrite XX, andb_true_r in *. destruct (length N =? 1) eqn:E2.
        -- rewrite (E1 eq_refl) in HR. cbn [Z.eqb] in HR. rewrite EF, EL in HR.
           destruct (select _ _ _) as [cs|] eqn:ES; cbn [rbind] in HR; [|discriminate]. injection HR as HR.
           apply (f_equal (@me_cons O)) in HR. cbn [me_cons] in HR. rewrite <- HR. apply select_inv in ES. destruct ES as (_ & _ & ES). cbn in ES.
           inversion ES as [|? b ? ? Hb HX]; subst. inversion HX; subst.
           destruct (map fst (live_items C W id h ++ N)); cbn in Hb; [discriminate|]. injection Hb as ->. reflexivity.
        -- cbn in HR. injection HR as HR. apply (f_equal (@me_cons O)) in HR. cbn [me_cons] in HR. rewrite <- HR, P1. reflexivity.
Qed.
Lemma picked_frame h o (p p' : pcm) id : newly C W h o = [] -> is_removal o = false -> p_lcs p' = p_lcs p ->
  picked h p id -> picked (h ++ [o]) p' id.
Proof.
  intros X1 X2 X3 HP. unfold picked in *. rewrite live_snoc, X1, X3 by auto. cbn [filter]. rewrite app_nil_r, lone_snoc. unfold lone_step.
  assert (NT : target C W h o = None) by (destruct o; try discriminate; auto). rewrite NT, new_of_map, X1. cbn. rewrite orb_false_r. exact HP.
Qed.

Lemma picked_remove h o (p q p' : pcm) e a0 b0 id : target C W h o = Some (a0, b0) -> p_lcs q = p_lcs p -> has_rows p ->
  pcm_remove_last_id (so_pcm W) (a0, b0) q = Val (p', e) -> (forall id, me_factors (lc_get id (p_lcs p)) = live_of id h) ->
  (c_loop_check C = true -> 3 <= length (live_of id h) -> oid_eqb id (a0, b0) = true ->
     faithful (@lc_test O) (live_items C W id (h ++ [o])) (me_adj (lc_get id (p_lcs p')))) ->
  (c_loop_check C = false -> length (live_of (a0, b0) h) < 3) ->
  picked h p id -> picked (h ++ [o]) p' id.
Proof.
  intros HT HQ HR H J J' Hn HP.
  assert (EI : sp_items (h ++ [o]) = drop_last (fun x => of_pair (a0, b0) (fst x)) (sp_items h)).
  { rewrite sp_items_snoc. destruct o; try discriminate; cbn [target items_step] in *; [injection HT as -> ->; auto|].
    destruct (rev (sp_order C W h)); [discriminate|]. injection HT as ->. auto. }
  assert (HRq : has_rows q) by (unfold has_rows; rewrite HQ; auto).
  pose proof (@remove_id_live _ _ _ _ _ _ _ H HRq) as (_ & _ & R3 & _ & R5). rewrite HQ in *.
  unfold pcm_remove_last_id in H. rewrite HQ in H.
  assert (LO : forall id, oid_eqb id (a0, b0) = true -> live_of id h = live_of (a0, b0) h) by (intros; apply live_of_ext; auto).
  assert (LF : me_factors (lc_get (a0, b0) (p_lcs p)) = live_of (a0, b0) h).
  { apply J. }
  assert (LI : live_items C W id (h ++ [o]) = if oid_eqb id (a0, b0) then removelast (live_items C W id h) else live_items C W id h).
  { unfold live_items. fold (sp_items (h ++ [o])) (sp_items h). rewrite EI. destruct (oid_eqb id (a0, b0)) eqn:E2.
    - rewrite !(filter_ext _ _ (fun x => of_pair_ext _ _ (fst x) E2)). apply drop_last_filter.
    - apply drop_last_other. intros y Hy. eapply of_pair_disjoint; eauto. }
  destruct (lc_find (a0, b0) (p_lcs p)) as [m|] eqn:E.
  2:{ injection H as <- <-. unfold uget in LF. rewrite E in LF. cbn in LF.
      assert (EL : live_items C W id (h ++ [o]) = live_items C W id h).
      { rewrite LI. destruct (oid_eqb id (a0, b0)) eqn:E2; auto. specialize (LO _ E2). rewrite <- LF, live_of_map in LO.
        apply map_fst_nil in LO. rewrite LO. auto. }
      unfold picked in *. rewrite HQ, EL, lone_snoc. unfold lone_step. rewrite HT.
      destruct (oid_eqb id (a0, b0)) eqn:E2; [|exact HP].
      assert (EN : live_items C W id h = []) by (apply map_fst_nil; rewrite <- live_of_map, (LO _ E2), <- LF; auto).
      rewrite (LO _ E2), <- LF. cbn [length Nat.leb]. rewrite EN in *. destruct (c_loop_check C), (c_incremental C); auto.
      destruct HP as (P1 & P2). split; [|discriminate]. rewrite P1. destruct (lone id h); auto. }
  destruct R5 as (fs & x & R5 & _). rewrite R5, rev_app_distr, removelast_last in H. cbn [rev app] in H.
  assert (G : lc_get (a0, b0) (p_lcs p) = m) by (unfold uget; rewrite E; auto). rewrite G, R5 in LF.
  rewrite <- LF, app_length in Hn. cbn [length] in Hn.
  assert (LL : oid_eqb id (a0, b0) = true -> length (live_of id h) = length fs + 1) by (intro X; rewrite (LO _ X), <- LF, app_length; auto).
  assert (Hm : 1 <= m_rows (me_adj m)).
  { apply ufind_In in E. destruct E as (k & _ & Hin). unfold has_rows in HR. rewrite Forall_forall in HR. apply (HR _ Hin). }
  destruct (m_rows (me_adj m) <=? 0) eqn:E0; [apply Nat.leb_le in E0; lia|].
  match type of H with rbind ?r _ = _ => destruct r as [m'|] eqn:EM end; cbn [rbind] in H; [|discriminate].
  injection H as <- <-. unfold picked in *. rewrite lone_snoc. unfold lone_step. rewrite HT.
  cbn [p_lcs set_lcs] in *. rewrite LI, oid_get_set. destruct (oid_eqb id (a0, b0)) eqn:E2.
  2:{ exact HP. }
  assert (LM : map fst (live_items C W id h) = fs ++ [x]) by (rewrite <- live_of_map, (LO _ E2); auto).
  assert (LR : map fst (removelast (live_items C W id h)) = fs).
  { destruct (live_items C W id h) as [|y l] eqn:EL using rev_ind; [destruct fs; discriminate LM|]. rewrite removelast_last.
    rewrite map_app in LM. apply app_inj_tail in LM. tauto. }
  destruct (c_loop_check C) eqn:HC.
  - destruct (length fs <? 2) eqn:EL.
    { apply Nat.ltb_lt in EL. injection EM as <-. cbn [me_cons]. split.
      - intro X. rewrite X in LR. auto.
      - intro NE. destruct (removelast (live_items C W id h)) as [|y [|y' l]]; [congruence| |].
        + cbn in LR. subst fs. apply star_one.
        + rewrite <- LR in EL. cbn in EL. lia. }
    apply Nat.ltb_ge in EL.
    destruct (m_cols (me_adj m) =? m_rows (me_adj m)); [|discriminate]. apply heu_inliers_inv in EM. destruct EM as (k & data & cs & K1 & K2 & ->).
    cbn [me_cons me_factors me_adj] in *. split.
    { intro X. rewrite X in LR. subst fs. cbn in EL. lia. }
    intro NE. eapply heu_star with (extra := []) (3 := K1); auto.
    + specialize (LL eq_refl). pose proof (J' eq_refl ltac:(lia) eq_refl) as X. rewrite oid_get_set, E2, LI in X. exact X.
    + rewrite app_nil_r, LR. auto.
  - specialize (Hn eq_refl). assert (L1 : length fs < 2) by lia. pose proof L1 as L2. apply Nat.ltb_lt in L2. rewrite L2 in EM. injection EM as <-. cbn [me_cons].
    rewrite (LL eq_refl), LR. destruct (c_incremental C); [|auto].
    destruct fs as [|y [|]]; cbn in L1; try lia; cbn [length Nat.add Nat.leb firstn]; split; auto; try discriminate.
    intros _ X. rewrite X in LR. discriminate.
Qed.

Lemma picked_run h : forall (s : solver) rs, run C W h start = Ok s rs -> sound h -> small C (length (sp_stored C W h)) ->
  exists p, s_pcm s = Some p /\ forall id, picked h p id.
Proof.
  induction h as [|o h IH] using rev_ind; intros s rs H HK HZ.
  - injection H as <- <-. exists pcm_init. split; auto. intro id. unfold picked. destruct (c_loop_check C), (c_incremental C); cbn; auto; split; auto; congruence.
  - assert (HZh : small C (length (sp_stored C W h))) by (intro X; specialize (HZ X); rewrite sp_stored_snoc, app_length in HZ; lia).
    pose proof (sound_prefix _ _ HK) as HKh.
    pose proof H as HR. apply run_snoc in HR. destruct HR as (s0 & rs0 & r & HR & HS & _).
    destruct (IH _ _ HR HKh HZh) as (p & Hp & J). destruct (live_run _ _ _ HR) as (p0 & I & L).
    assert (p0 = p) by (pose proof (hi_pcm I); congruence). subst p0.
    destruct (@shape_run _ C W _ _ _ H) as (q' & Iq' & L' & SH & HKN).
    pose proof (step_inv C W o s0 Hp HS) as (s1 & p' & b & [E0 E] & _ & _ & _ & Ho).
    assert (Hp' : s_pcm s = Some p').
    { destruct (optimises o b); [|congruence]. destruct (optimize_same C W s1 Ho) as (G & _). congruence. }
    assert (q' = p') by (pose proof (hi_pcm Iq'); congruence). subst q'.
    exists p'. split; auto. intro id.
    assert (RC : c_loop_check C = true -> recs (sp_items (h ++ [o])) (fun id => pair_record C W id (h ++ [o])) p').
    { intro HC. destruct (@record_run _ C W _ HC _ _ H (HK HC)) as (q & Hq & X). assert (q = p') by congruence. subst q. exact X. }
    assert (LF' : me_factors (lc_get id (p_lcs p')) = map fst (live_items C W id (h ++ [o]))) by (rewrite (li_lcs L'), <- live_of_map; auto).
    assert (CALL : forall fs vs, call_of o = Some (fs, vs) -> picked (h ++ [o]) p' id).
    { intros fs vs Hc. assert (NT : target C W h o = None) by (destruct o; try discriminate; auto).
      assert (NR : is_removal o = false) by (destruct o; try discriminate; auto). destruct (c_incremental C) eqn:HI.
      - destruct (@call_step _ _ _ _ _ _ H Hc HI) as (sA & rsA & pA & pB & A1 & A2 & A3 & A6).
        rewrite HR in A1. injection A1 as <- <-. assert (pA = p) by congruence. subst pA. assert (pB = p') by congruence. subst pB.
        destruct (@picked_call h o p p' id fs vs Hc HI) as (X & _); auto.
        + intros HC NN. pose proof (rc_adj (RC HC) id) as X. cbv beta in X. rewrite pair_record_snoc in X. unfold record_step in X. rewrite NT in X.
          destruct (new_of id h o) eqn:EN; [congruence|]. apply X. rewrite live_snoc by auto. intro Y. apply app_eq_nil in Y. destruct Y as [_ Y].
          rewrite new_of_map, Y in EN. discriminate.
        + intro HC. unfold uget. destruct (lc_find id (p_lcs p')) as [m|] eqn:EF; [|cbn; auto]. specialize (SH _ _ EF). unfold fits in SH.
          rewrite HC in SH. destruct SH as (S1 & S2). rewrite S1, S2. auto.
      - destruct (@call_heu _ _ _ _ _ _ H Hc HI) as (sA & rsA & pA & pB & A1 & A2 & A3 & A6).
        rewrite HR in A1. injection A1 as <- <-. assert (pA = p) by congruence. subst pA. assert (pB = p') by congruence. subst pB.
        destruct A6 as [[A6 A7]|A6]; [eapply picked_frame; eauto|].
        unfold picked. rewrite HI. unfold uget in *. destruct (settled_get oid_eqb _ id A6) as [EF|(m & EF & Hv)]; rewrite EF in *.
        + cbn in LF'. symmetry in LF'. apply map_fst_nil in LF'. rewrite LF'. destruct (c_loop_check C); cbn; auto. split; auto. congruence.
        + unfold pair_inliers in Hv. destruct (c_loop_check C) eqn:HC.
          2:{ injection Hv as Hv. rewrite <- LF', <- Hv at 1. auto. }
          specialize (SH _ _ EF). destruct SH as (S1 & S2). rewrite HC in S2. specialize (RC eq_refl).
          assert (G : lc_get id (p_lcs p') = m) by (unfold uget; rewrite EF; auto).
          split.
          * intro EL. exfalso. rewrite EL in LF'. eapply empty_unselectable; [exact LF'| |exact Hv]. rewrite LF' in S2.
            destruct (RemoveSpec.stale C W id (h ++ [o])); cbn in S2; lia.
          * intro EL. destruct (RemoveSpec.stale C W id (h ++ [o])).
            -- rewrite LF', map_length in S2. destruct (live_items C W id (h ++ [o])) as [|x [|x' l]]; [congruence| |cbn in S2; lia].
               cbn in S2, LF'. assert (S3 : m_rows (me_adj m) = 2) by lia. rewrite S3 in S1.
               unfold heu_inliers in Hv. rewrite LF' in Hv. destruct (me_adj m) as [r1 c1 f] eqn:EA. cbn in S1, S3. subst r1 c1.
               rewrite two_heu in Hv. destruct (f 1 0); cbn [rbind] in Hv; [cbv in Hv; discriminate|].
               injection Hv as Hv. rewrite <- Hv. apply star_one.
            -- apply heu_inliers_inv in Hv. destruct Hv as (k & data & cs & V1 & V2 & V3).
               assert (me_cons m = cs) as -> by (rewrite V3; auto). rewrite LF', <- (app_nil_r (map fst _)) in V2. eapply heu_star; eauto.
               destruct (rc_pre RC id) as (tl & T1 & _). cbv beta in T1. pose proof (rc_adj RC id) as T2. cbv beta in T2. rewrite T1, G in T2.
               change (at_pair id (sp_items (h ++ [o]))) with (live_items C W id (h ++ [o])) in T2.
               assert (TF := T2 ltac:(intro Y; apply app_eq_nil in Y; destruct Y; congruence)).
               assert (tl = []) as ->; [|rewrite app_nil_r in TF; exact TF].
               destruct TF as (T3 & _). rewrite app_length in T3. rewrite LF', map_length in S2. apply length_zero_iff_nil. lia. }
    assert (REM : forall id0 q e, target C W h o = Some id0 -> p_lcs q = p_lcs p -> pcm_remove_last_id (so_pcm W) id0 q = Val (p', e) ->
      picked (h ++ [o]) p' id).
    { intros [a0 b0] q e HT HQ X. eapply picked_remove with (p := p) (q := q); eauto.
      - apply (li_rows L).
      - apply (li_lcs L).
      - intros HC H3 HE. pose proof (rc_adj (RC HC) id) as Y. cbv beta in Y. rewrite pair_record_snoc in Y. unfold record_step in Y. rewrite HT, HE in Y. cbn [andb] in Y.
        apply Nat.leb_le in H3. rewrite H3 in Y. apply Y. apply Nat.leb_le in H3.
        intro Z. pose proof (@remove_id_live _ _ _ _ _ _ _ X) as RL. destruct RL as (_ & _ & R3 & _).
        { unfold has_rows. rewrite HQ. apply (li_rows L). }
        specialize (R3 id). rewrite HQ, HE, LF', Z, (li_lcs L) in R3. apply (f_equal (@length _)) in R3.
        fold (live_of id h) in R3. destruct (live_of id h) as [|y [|y' [|y'' l]]]; cbn in R3, H3; lia.
      - intro HC. destruct (Nat.lt_ge_cases (length (live_of (a0, b0) h)) 3) as [Y|Y]; auto. exfalso.
        assert (EV : ever C W (a0, b0) h = true).
        { destruct (ever C W (a0, b0) h) eqn:EV; auto. exfalso. destruct (@shape_run _ C W _ _ _ HR) as (q2 & Iq2 & L2 & _ & K2).
          assert (q2 = p) by (pose proof (hi_pcm Iq2); congruence). subst q2. apply K2 in EV. pose proof (li_lcs L (a0, b0)) as Z. unfold uget in Z. rewrite EV in Z.
          cbn in Z. fold (live_of (a0, b0) h) in Z. rewrite <- Z in Y. cbn in Y. lia. }
        destruct (@dead_removal _ C W h s0 rs0 o (a0, b0) HR HT) as [u U]; [|congruence]. split; auto. }
    destruct o as [fs vs opt|fs vs|c opt|a0 b0| |c|c|fs vs|fs vs|]; cbn [call_of is_removal] in *.
    1,2: apply CALL with fs vs; auto.
    2:{ destruct E as (e & _ & X & _). eapply REM with (q := p); eauto; reflexivity. }
    2:{ destruct E as (e & _ & X & _). unfold pcm_remove_last in X. rewrite (li_order L) in X.
        destruct (rev (sp_order C W h)) as [|id0 l] eqn:ER.
        - injection X as <- <-. unfold picked. assert (EL : live_items C W id (h ++ [OpRemoveLast]) = live_items C W id h).
          { unfold live_items. fold (sp_items (h ++ [@OpRemoveLast O])) (sp_items h). rewrite sp_items_snoc. cbn [items_step]. rewrite ER. auto. }
          rewrite EL, lone_snoc. unfold lone_step. cbn [target]. rewrite ER, new_of_map. cbn. rewrite orb_false_r. apply J.
        - eapply REM with (q := set_order p (removelast (sp_order C W h))); eauto; try reflexivity. cbn [target]. rewrite ER. auto. }
    all: eapply picked_frame with (p := p); auto; destruct E as (-> & _); auto.
    all: unfold pcm_ignore; destruct (existsb (N.eqb c) (p_ignored p)); auto.
Qed.

(** ** The record *)
Lemma length_filter_rev {A} (F : A -> bool) l : length (filter F (rev l)) = length (filter F l).
Proof. induction l as [|x l IH]; cbn; auto. rewrite filter_app, app_length. cbn. destruct (F x); cbn; lia. Qed.
Lemma drop_first_filter_length {A} (F G : A -> bool) l : length (filter F l) <= S (length (filter F (drop_first G l))).
Proof. induction l as [|x l IH]; cbn; auto. destruct (G x); cbn; destruct (F x); cbn; lia. Qed.
Lemma drop_last_filter_length {A} (F G : A -> bool) l : length (filter F l) <= S (length (filter F (drop_last G l))).
Proof.
  unfold drop_last. rewrite length_filter_rev, <- (length_filter_rev F l). apply drop_first_filter_length.
Qed.
Lemma record_nonempty h id : ever C W id h = true -> pair_record C W id h <> [].
Proof.
  induction h as [|o h IH] using rev_ind; [discriminate|]. unfold ever in *. rewrite sp_stored_snoc, existsb_app, orb_true_iff, pair_record_snoc. unfold record_step.
  assert (NN : new_of id h o = [] -> existsb (fun x => of_pair id (fst x)) (newly C W h o) = false).
  { unfold RemoveSpec.new_of. intro X. destruct (existsb (fun x => of_pair id (fst x)) (newly C W h o)) eqn:E; auto. exfalso. apply existsb_exists in E. destruct E as (x & E1 & E2).
    assert (Y : In (fst x) (filter (of_pair id) (map fst (newly C W h o)))) by (apply filter_In; split; auto; apply in_map; auto). rewrite X in Y. destruct Y. }
  destruct (target C W h o) as [id'|] eqn:HT.
  - assert (newly C W h o = []) as -> by (destruct o; try discriminate; reflexivity). cbn [existsb]. intros [X|X]; [|discriminate].
    destruct (oid_eqb id id') eqn:E1; [|apply IH; auto]. destruct (3 <=? length (live_of id h)) eqn:E2; [|apply IH; auto]. cbn [andb].
    apply Nat.leb_le in E2. intro Y. apply (f_equal (map fst)) in Y. rewrite <- live_of_map in Y. cbn in Y.
    assert (Z : length (live_of id h) <= S (length (live_of id (h ++ [o])))).
    { unfold RemoveSpec.live_of. rewrite RemoveExact.sp_live_snoc, HT. apply drop_last_filter_length. }
    rewrite Y in Z. cbn in Z. lia.
  - intro X. destruct (new_of id h o) eqn:E.
    { rewrite NN in X by auto. destruct X as [X|X]; [apply IH; auto|discriminate]. }
    intro Y. apply (f_equal (map fst)) in Y. rewrite <- live_of_map in Y. cbn in Y.
    unfold RemoveSpec.live_of in Y. rewrite RemoveExact.sp_live_snoc, HT, filter_app in Y. apply app_eq_nil in Y. destruct Y as [_ Y].
    unfold RemoveSpec.new_of in E. congruence.
Qed.
Lemma live_ever h id : ever C W id h = false -> live_items C W id h = [] /\ pair_record C W id h = [].
Proof.
  induction h as [|o h IH] using rev_ind; [auto|]. unfold ever in *. rewrite sp_stored_snoc, existsb_app, orb_false_iff. intros (X & Y).
  destruct (IH X) as (I1 & I2). rewrite pair_record_snoc. unfold record_step.
  assert (NN : new_of id h o = []).
  { unfold RemoveSpec.new_of. destruct (filter (of_pair id) (map fst (newly C W h o))) as [|b l] eqn:E; auto. exfalso.
    assert (Z : In b (filter (of_pair id) (map fst (newly C W h o)))) by (rewrite E; left; auto). apply filter_In in Z. destruct Z as [Z1 Z2].
    apply in_map_iff in Z1. destruct Z1 as (x & <- & Z1). assert (existsb (fun x => of_pair id (fst x)) (newly C W h o) = true); [|congruence].
    apply existsb_exists. eauto. }
  assert (LI : live_items C W id (h ++ [o]) = []).
  { apply map_fst_nil. rewrite <- live_of_map. unfold RemoveSpec.live_of. rewrite RemoveExact.sp_live_snoc. destruct (target C W h o) as [id'|].
    - apply length_zero_iff_nil. apply Nat.le_0_r. assert (Z : length (live_of id h) = 0) by (rewrite live_of_map, I1; auto). rewrite <- Z.
      unfold RemoveSpec.live_of, drop_last. rewrite length_filter_rev, <- (length_filter_rev _ (sp_live C W h)).
      generalize (rev (sp_live C W h)). intro l. induction l as [|y l IHl]; cbn; auto. destruct (of_pair id' y); cbn; destruct (of_pair id y); cbn; lia.
    - rewrite filter_app. change (filter (of_pair id) (map fst (newly C W h o))) with (new_of id h o). rewrite NN, app_nil_r.
      change (live_of id h = []). rewrite live_of_map, I1. auto. }
  split; auto. rewrite NN, LI, I2. destruct (target C W h o); auto. destruct (_ && _); auto.
Qed.

Lemma record_every h (s : solver) rs id : run C W h start = Ok s rs -> records_sound C W h -> c_loop_check C = true ->
  exists p tl, s_pcm s = Some p /\ me_factors (lc_get id (p_lcs p)) = map fst (live_items C W id h) /\
    pair_record C W id h = live_items C W id h ++ tl /\ (tl <> [] <-> RemoveSpec.stale C W id h = true) /\
    (tl <> [] -> length (pair_record C W id h) <= 2) /\
    (pair_record C W id h <> [] -> faithful (@lc_test O) (pair_record C W id h) (me_adj (lc_get id (p_lcs p)))).
Proof.
  intros H HK HC. destruct (@record_run _ C W _ HC _ _ H HK) as (p & Hp & RC).
  destruct (@shape_run _ C W _ _ _ H) as (q & Iq & L & SH & KN). assert (q = p) by (pose proof (hi_pcm Iq); congruence). subst q.
  destruct (rc_pre RC id) as (tl & T1 & T2). cbv beta in T1, T2. pose proof (rc_adj RC id) as T3. cbv beta in T3.
  change (at_pair id (sp_items h)) with (live_items C W id h) in T1.
  assert (LF : me_factors (lc_get id (p_lcs p)) = map fst (live_items C W id h)) by (rewrite (li_lcs L), <- live_of_map; auto).
  exists p, tl. split; auto. split; auto. split; auto. split; [|split; auto; destruct T2; [congruence|auto]].
  destruct (lc_find id (p_lcs p)) as [m|] eqn:EF.
  - specialize (SH _ _ EF). unfold fits in SH. rewrite HC in SH. destruct SH as (S1 & S2).
    assert (G : lc_get id (p_lcs p) = m) by (unfold uget; rewrite EF; auto). rewrite G in *. rewrite LF, map_length in S2.
    split.
    + intro NT. destruct (RemoveSpec.stale C W id h); auto. exfalso.
      destruct (T3 ltac:(rewrite T1; intro Y; apply app_eq_nil in Y; destruct Y; congruence)) as (F1 & _).
      rewrite T1, app_length in F1. destruct tl; [congruence|cbn in F1; lia].
    + intros ST ->. rewrite ST in S2. rewrite app_nil_r in T1. destruct (live_items C W id h) eqn:EL.
      * rewrite T1 in T3. clear T3 T2. revert T1. apply record_nonempty. apply stale_ever; auto.
      * destruct (T3 ltac:(rewrite T1; discriminate)) as (F1 & _). rewrite T1 in F1. lia.
  - pose proof EF as EV. apply KN in EV. split.
    + intro NT. exfalso. destruct (live_ever _ _ EV) as (_ & Y). rewrite Y in T1. symmetry in T1. apply app_eq_nil in T1. destruct T1. congruence.
    + intro ST. apply stale_ever in ST. congruence.
Qed.

(** ** The graph *)
Lemma sound_picked h (s : solver) rs id : run C W h start = Ok s rs -> sound h -> small C (length (sp_stored C W h)) -> pair_ignored h id = false ->
  exists p, graph_lcs C h id (s_nfg s) = me_cons (lc_get id (p_lcs p)) /\ picked h p id.
Proof.
  intros H HK HZ HG. destruct (@picked_run _ _ _ H HK HZ) as (p & Hp & X). destruct (hist_run C W _ H) as [p0 I].
  assert (p0 = p) by (pose proof (hi_pcm I); congruence). subst p0. exists p. rewrite (graph_lcs_eq id I), HG. auto.
Qed.

Lemma kept_star h (s : solver) rs id : run C W h start = Ok s rs -> records_sound C W h -> small C (length (sp_stored C W h)) ->
  c_loop_check C = true -> pair_ignored h id = false -> live_items C W id h <> [] ->
  star_of (@lc_test O) (live_items C W id h) (graph_lcs C h id (s_nfg s)).
Proof.
  intros H HK HZ HC HG HN. destruct (@sound_picked h s rs id H) as (p & -> & X); auto. { intros _. auto. }
  unfold picked in X. rewrite HC in X. apply X. auto.
Qed.

Lemma kept_all_modes h (s : solver) rs id : run C W h start = Ok s rs -> records_sound C W h -> small C (length (sp_stored C W h)) ->
  c_loop_check C = true -> pair_ignored h id = false ->
  (forall i j x y, i < j -> nth_error (live_items C W id h) i = Some x -> nth_error (live_items C W id h) j = Some y ->
     lc_test x y = Some true) ->
  Permutation (graph_lcs C h id (s_nfg s)) (map fst (live_items C W id h)).
Proof.
  intros H HK HZ HC HG HA.
  destruct (live_items C W id h) as [|x0 L0] eqn:EL.
  - destruct (@sound_picked h s rs id H) as (p & -> & X); auto. { intros _. auto. }
    unfold picked in X. rewrite HC in X. destruct X as (X & _). rewrite (X EL). auto.
  - assert (HN : live_items C W id h <> []) by (rewrite EL; discriminate).
    destruct (@kept_star _ _ _ id H HK HZ HC HG HN) as (idx & _ & _ & _ & _ & ALL). rewrite <- EL. apply ALL.
    intros i j Hi Hj Hij. destruct (nth_error (live_items C W id h) i) as [x|] eqn:Ei; [|apply nth_error_None in Ei; lia].
    destruct (nth_error (live_items C W id h) j) as [y|] eqn:Ej; [|apply nth_error_None in Ej; lia].
    exists x, y. split; auto. split; auto. rewrite EL in Ei, Ej.
    destruct (Nat.lt_gt_cases i j) as [[X|X] _]; [auto| |]; [left|right]; split; eauto.
Qed.

Lemma kept_off_every h (s : solver) rs id : run C W h start = Ok s rs -> small C (length (sp_stored C W h)) ->
  c_loop_check C = false -> pair_ignored h id = false ->
  graph_lcs C h id (s_nfg s) =
    if c_incremental C then if lone id h then firstn 1 (map fst (live_items C W id h)) else [] else map fst (live_items C W id h).
Proof.
  intros H HZ HC HG. destruct (@sound_picked h s rs id H) as (p & -> & X); auto. { intro X. congruence. }
  unfold picked in X. rewrite HC in X. destruct (c_incremental C); apply X.
Qed.

Lemma kept_grows h o (s : solver) rs (s' : solver) rs' id : run C W h start = Ok s rs -> run C W (h ++ [o]) start = Ok s' rs' ->
  records_sound C W (h ++ [o]) -> small C (length (sp_stored C W (h ++ [o]))) -> is_removal o = false ->
  c_incremental C = true -> c_loop_check C = true -> pair_ignored (h ++ [o]) id = pair_ignored h id ->
  graph_lcs C (h ++ [o]) id (s_nfg s') = graph_lcs C h id (s_nfg s) \/
  length (graph_lcs C h id (s_nfg s)) < length (graph_lcs C (h ++ [o]) id (s_nfg s')) /\
  exists b, hd_error (graph_lcs C (h ++ [o]) id (s_nfg s')) = Some b /\ In b (new_of id h o).
Proof.
  intros H H' HK HZ NR HI HC HG.
  assert (HS : sound (h ++ [o])) by (intros _; auto).
  assert (HZh : small C (length (sp_stored C W h))) by (intro X; specialize (HZ X); rewrite sp_stored_snoc, app_length in HZ; lia).
  destruct (hist_run C W _ H) as [p I]. destruct (hist_run C W _ H') as [p' I']. rewrite (graph_lcs_eq id I), (graph_lcs_eq id I'), HG.
  destruct (pair_ignored h id); auto.
  destruct (call_of o) as [[fs vs]|] eqn:Hc.
  - destruct (@call_step _ _ _ _ _ _ H' Hc HI) as (sA & rsA & pA & pB & A1 & A2 & A3 & A6).
    rewrite H in A1. injection A1 as <- <-. assert (pA = p) by (pose proof (hi_pcm I); congruence). subst pA.
    assert (pB = p') by (pose proof (hi_pcm I'); congruence). subst pB.
    destruct (@picked_run _ _ _ H (sound_prefix _ _ HS) HZh) as (q & Hq & X). assert (q = p) by (pose proof (hi_pcm I); congruence). subst q.
    destruct (live_run _ _ _ H') as (q & Iq & L'). assert (q = p') by (pose proof (hi_pcm I'); pose proof (hi_pcm Iq); congruence). subst q.
    assert (NT : target C W h o = None) by (destruct o; try discriminate; auto).
    apply (@picked_call h o p p' id fs vs Hc HI); auto; try congruence.
    + rewrite (li_lcs L'), <- live_of_map. auto.
    + intros _ NN. destruct (@record_run _ C W _ HC _ _ H' HK) as (q & Hq' & RC). assert (q = p') by congruence. subst q.
      pose proof (rc_adj RC id) as Y. cbv beta in Y. rewrite pair_record_snoc in Y. unfold record_step in Y. rewrite NT in Y.
      destruct (new_of id h o) eqn:EN; [congruence|]. apply Y. rewrite live_snoc by auto. intro Z. apply app_eq_nil in Z. destruct Z as [_ Z].
      rewrite new_of_map, Z in EN. discriminate.
  - left. pose proof H' as HR. apply run_snoc in HR. destruct HR as (s0 & rs0 & r & HR & HS' & _). rewrite H in HR. injection HR as <- <-.
    pose proof (step_inv C W o s (hi_pcm I) HS') as (s1 & p1 & b & [E0 E] & _ & _ & _ & Ho).
    assert (p1 = p').
    { pose proof (hi_pcm I'). destruct (optimises o b); [|congruence]. destruct (optimize_same C W s1 Ho) as (G & _). congruence. }
    subst p1. assert (L : p_lcs p' = p_lcs p).
    { destruct o; try discriminate; destruct E as (-> & _); auto; unfold pcm_ignore; destruct (existsb (N.eqb c) (p_ignored p)); auto. }
    rewrite L. auto.
Qed.
End Inc.
