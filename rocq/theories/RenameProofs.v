(** * Renaming robots and poses renames everything the solver holds and returns *)
From Coq Require Import Permutation QArith Lia.
From Verif Require Import Prelude Keys KMap UMap Geometry Factors Clique Pcm Solver PcmSpec PcmProofs HistSpec CallsSpec CallsProofs
  RenameSpec.
Set Implicit Arguments.
Local Open Scope nat_scope.

Section Rename.
Variable O : tops.
Variable C : config.
Variable f : key -> key.
Variable r : N -> N.
Notation bf := (bf O).
Notation factor := (factor O).
Notation values := (values O).
Notation graph_t := (graph_t O).
Notation pcm := (pcm O).
Notation meas := (meas O).
Notation op := (op O).
Notation solver := (solver O).
Notation nb := (@nm_bf O f).
Notation nf := (@nm_factor O f).
Notation ng := (@nm_graph O f).
Notation nm := (@nm_map f _).
Notation ni := (nm_id r).
Notation ne := (@nm_meas O f).
Notation np := (@nm_pcm O f r).
Notation C' := (nm_config r C).

(** What is known of the factors handed over and of the prefixes in use. *)
Variable D : factor -> Prop.
Variable E : N -> Prop.
Notation Db b := (D (FBetween b)).
Hypothesis Hf : forall a b, (a < b)%N -> (f a < f b)%N.
Hypothesis Hr : forall a b, r a = r b -> a = b.
Hypothesis Hchr : forall x k, D x -> In k (f_keys x) -> chr (f k) = r (chr k).
Hypothesis HE : forall x k, D x -> In k (f_keys x) -> E (chr k).
Hypothesis Hnext : forall b, Db b -> (ksucc (f (b_from b)) = f (b_to b) <-> ksucc (b_from b) = b_to b).
Hypothesis Hplain : forall c, E c -> ((r c < 128)%N <-> (c < 128)%N).
Hypothesis Hsorted : forall c d, E c -> E d -> ((schar (r c) <= schar (r d))%Z <-> (schar c <= schar d)%Z).
Hypothesis Hzero : forall b b', Db b -> Db b' -> b_to b = b_to b' -> is_special C (b_to b) = true ->
  chr (b_from b) <> chr (b_from b') -> f (sym (chr (b_from b)) 0) = sym (r (chr (b_from b))) 0.
Hypothesis Hof : keys_unread O.

(** ** Keys, prefixes and maps *)
Lemma f_ltb a b : (f a <? f b)%N = (a <? b)%N.
Proof.
  destruct (N.ltb_spec a b) as [H|H].
  - apply N.ltb_lt, Hf; auto.
  - apply N.ltb_ge. destruct (N.eq_dec a b) as [->|]; [lia|]. assert (f b < f a)%N by (apply Hf; lia). lia.
Qed.
Lemma f_inj a b : f a = f b -> a = b.
Proof.
  intro H. destruct (N.lt_total a b) as [L|[L|L]]; auto; apply Hf in L; lia.
Qed.
Lemma f_eqb a b : (f a =? f b)%N = (a =? b)%N.
Proof.
  destruct (N.eqb_spec a b) as [->|H]; [apply N.eqb_refl|]. apply N.eqb_neq. intro X. apply H, f_inj, X.
Qed.
Lemma r_eqb a b : (r a =? r b)%N = (a =? b)%N.
Proof.
  destruct (N.eqb_spec a b) as [->|H]; [apply N.eqb_refl|]. apply N.eqb_neq. intro X. apply H, Hr, X.
Qed.
Lemma ni_eqb a b : oid_eqb (ni a) (ni b) = oid_eqb a b.
Proof. unfold oid_eqb, nm_id. cbn [fst snd]. rewrite !r_eqb. reflexivity. Qed.
Lemma existsb_r c l : existsb (N.eqb (r c)) (map r l) = existsb (N.eqb c) l.
Proof. induction l as [|x l IH]; cbn [map existsb]; auto. rewrite IH, r_eqb. reflexivity. Qed.
Lemma plain_r u c : E c -> same_char (r u) (r c) = same_char u c.
Proof.
  intro H. unfold same_char. rewrite r_eqb. f_equal. apply eq_true_iff_eq. rewrite !N.ltb_lt. auto.
Qed.

Lemma kfind_r V (m : kmap V) k : kfind (f k) (nm m) = kfind k m.
Proof. induction m as [|[a v] m IH]; cbn [nm_map map kfind fst snd]; auto. rewrite f_eqb. fold (nm m). rewrite IH. reflexivity. Qed.
Lemma kmem_r V (m : kmap V) k : kmem (f k) (nm m) = kmem k m.
Proof. unfold kmem. rewrite kfind_r. reflexivity. Qed.
Lemma kset_r V (m : kmap V) k v : kset (f k) v (nm m) = nm (kset k v m).
Proof.
  induction m as [|[a u] m IH]; cbn [nm_map map kset fst snd]; auto. rewrite f_ltb, f_eqb. fold (nm m).
  destruct (a <? k)%N eqn:X; destruct (k <? a)%N; cbn [map fst snd]; auto; destruct (k =? a)%N; cbn [map fst snd]; auto;
    fold (nm (kset k v m)); rewrite IH; auto.
Qed.
Section UMaps.
Variables (K K' V V' : Type) (eqb : K -> K -> bool) (eqb' : K' -> K' -> bool) (g : K -> K') (w : V -> V').
Hypothesis He : forall a b, eqb' (g a) (g b) = eqb a b.
Notation nu := (nm_umap g w).
Lemma ufind_r k m : ufind eqb' (g k) (nu m) = option_map w (ufind eqb k m).
Proof.
  induction m as [|[a v] m IH]; cbn [nm_umap map ufind fst snd]; auto. rewrite He. fold (nu m). rewrite IH.
  destruct (eqb k a); auto.
Qed.
Lemma uset_r k v m : uset eqb' (g k) (w v) (nu m) = nu (uset eqb k v m).
Proof.
  induction m as [|[a u] m IH]; cbn [nm_umap map uset fst snd]; auto. rewrite He. fold (nu m). rewrite IH.
  destruct (eqb k a); auto.
Qed.
Lemma uget_r d k m : uget eqb' (w d) (g k) (nu m) = w (uget eqb d k m).
Proof. unfold uget. rewrite ufind_r. destruct (ufind eqb k m); auto. Qed.
Lemma rinsert_r (rk : K -> nat) (rk' : K' -> nat) x l : (forall k, rk' (g k) = rk k) ->
  rinsert rk' (g (fst x), w (snd x)) (nu l) = nu (rinsert rk x l).
Proof.
  intro H. induction l as [|y l IH]; cbn [nm_umap map rinsert fst snd]; auto. rewrite !H. fold (nu l). rewrite IH.
  destruct (rk (fst x) <=? rk (fst y)); auto.
Qed.
Lemma uiter_r (o : list K -> K -> nat) (o' : list K' -> K' -> nat) m : (forall l x, o' (map g l) (g x) = o l x) ->
  uiter o' (nu m) = nu (uiter o m).
Proof.
  intro H. unfold uiter. assert (X : map fst (nu m) = map g (map fst m)).
  { unfold nm_umap. rewrite !map_map. auto. }
  rewrite X. clear X. specialize (H (map fst m)). revert H. generalize (o (map fst m)) (o' (map g (map fst m))).
  intros rk rk' H. induction m as [|x m IH]; cbn [nm_umap map fold_right]; auto. fold (nu m). rewrite IH.
  apply rinsert_r. auto.
Qed.
End UMaps.
Lemma firstn_In_r A n (l : list A) x : In x (firstn n l) -> In x l.
Proof. intro H. rewrite <- (firstn_skipn n l). apply in_or_app. auto. Qed.
Lemma In_uset_2 K V (eqb : K -> K -> bool) k (v : V) m x : In x (uset eqb k v m) ->
  In x m \/ (exists k', (k' = k \/ eqb k k' = true) /\ x = (k', v)).
Proof.
  induction m as [|[k0 v0] m IH]; cbn [uset In].
  - intros [<-|[]]. right. exists k. auto.
  - destruct (eqb k k0) eqn:X; cbn [In].
    + intros [<-|H]; auto. right. exists k0. auto.
    + intros [<-|H]; auto. destruct (IH H) as [|]; auto.
Qed.

(** ** Calls with an invariant on what they leave *)
Definition rel_res {A A'} (ga : A -> Prop) (ra : A -> A') (x : res A) (x' : res A') : Prop :=
  match x with Val a => x' = Val (ra a) /\ ga a | Bad u => x' = Bad u end.
Definition rel_out {S S' A A'} (gs : S -> Prop) (rs : S -> S') (ra : A -> A') (x : outcome S A) (x' : outcome S' A') : Prop :=
  match x with
  | Ok s a => x' = Ok (rs s) (ra a) /\ gs s
  | Throw s e => x' = Throw (rs s) (nm_exn f e) /\ gs s
  | Undef u => x' = Undef u
  end.
Lemma rel_res_bind A A' B B' (ga : A -> Prop) (ra : A -> A') (gb : B -> Prop) (rb : B -> B') x x' k k' :
  rel_res ga ra x x' -> (forall a, ga a -> rel_res gb rb (k a) (k' (ra a))) -> rel_res gb rb (rbind x k) (rbind x' k').
Proof. destruct x as [a|u]; cbn [rel_res rbind]; [intros [-> H] K; cbn [rbind]; auto|intros -> _; reflexivity]. Qed.
Lemma rel_out_bind S S' A A' B B' (gs : S -> Prop) (rs : S -> S') (ra : A -> A') (rb : B -> B') x x' k k' :
  rel_out gs rs ra x x' -> (forall s a, gs s -> rel_out gs rs rb (k s a) (k' (rs s) (ra a))) ->
  rel_out gs rs rb (obind x k) (obind x' k').
Proof.
  destruct x as [s a|s e|u]; cbn [rel_out obind].
  - intros [-> H] K. cbn [obind]. auto.
  - intros [-> H] _. cbn [obind]. auto.
  - intros -> _. reflexivity.
Qed.
Lemma rel_res_weak A A' (ga gb : A -> Prop) (ra rb : A -> A') x x' :
  rel_res ga ra x x' -> (forall a, ga a -> gb a) -> (forall a, ga a -> ra a = rb a) -> rel_res gb rb x x'.
Proof. destruct x as [a|u]; cbn [rel_res]; auto. intros [-> H] W V. rewrite V by auto. auto. Qed.
Lemma rel_res_fold A A' B B' (ga : A -> Prop) (ra : A -> A') (rb : B -> B') (h : B -> A -> res A) (h' : B' -> A' -> res A') l :
  forall a, ga a -> (forall x a, In x l -> ga a -> rel_res ga ra (h x a) (h' (rb x) (ra a))) ->
  rel_res ga ra (rfold h l a) (rfold h' (map rb l) (ra a)).
Proof.
  induction l as [|x l IH]; intros a Ha H; cbn [map rfold].
  - split; auto.
  - eapply rel_res_bind; [apply H; auto; left; auto|]. intros b Hb. apply IH; auto. intros y c Hy. apply H. right; auto.
Qed.

(** ** Trajectories *)
Notation tr_get := (uget N.eqb (@nil (N * t_T O))).
Notation nt := (nm_umap r (@nm_map f (t_T O))).
Lemma tr_get_r c m : tr_get (r c) (nt m) = nm (tr_get c m).
Proof. exact (uget_r N.eqb N.eqb r (@nm_map f (t_T O)) r_eqb [] c m). Qed.
Lemma tget_r (tr : traj O) k : tget (O := O) (nm tr) (f k) = tget tr k.
Proof. unfold tget. rewrite kfind_r. reflexivity. Qed.
Lemma ttouch_r (tr : traj O) k : ttouch (O := O) (nm tr) (f k) = nm (ttouch tr k).
Proof. unfold ttouch. rewrite kfind_r, kset_r. destruct (kfind k tr); auto. Qed.
Lemma traj_between_r p c a b : chr (f a) = r (chr a) -> chr (f b) = r (chr b) ->
  (chr a <> chr b -> f (sym (chr a) 0) = sym (r (chr a)) 0 /\ f (sym (chr b) 0) = sym (r (chr b)) 0) ->
  traj_between (np p) (r c) (f a) (f b) = (fst (traj_between p c a b), np (snd (traj_between p c a b))).
Proof.
  intros Ha Hb H. unfold traj_between. cbn [nm_pcm p_trajs]. rewrite tr_get_r.
  assert (G : get_between (O := O) (nm (tr_get c (p_trajs p))) (f a) (f b) =
    (fst (get_between (tr_get c (p_trajs p)) a b), nm (snd (get_between (tr_get c (p_trajs p)) a b)))).
  { unfold get_between. rewrite Ha, Hb, r_eqb. destruct (N.eqb_spec (chr a) (chr b)) as [Z|Z].
    - cbn [fst snd]. rewrite !ttouch_r, !tget_r. reflexivity.
    - destruct (H Z) as [<- <-]. cbn [fst snd]. rewrite !ttouch_r, !tget_r. reflexivity. }
  rewrite G. destruct (get_between (tr_get c (p_trajs p)) a b) as [t tr]. cbn [fst snd]. f_equal.
  unfold nm_pcm, set_trajs. cbn [p_odom p_special p_lcs p_trajs p_lms p_order p_total p_good p_ignored p_robots]. f_equal.
  exact (uset_r N.eqb N.eqb r (@nm_map f (t_T O)) r_eqb c tr (p_trajs p)).
Qed.

(** ** Invariant of the stored factors *)
Definition pair_of (b : bf) : obsid := (chr (b_from b), chr (b_to b)).
Record good (p : pcm) : Prop := {
  gd_special : forall x, In x (p_special p) -> D x;
  gd_odom : forall b, In b (p_odom p) -> Db b;
  gd_lcs : forall id m b, In (id, m) (p_lcs p) -> In b (me_factors m) \/ In b (me_cons m) -> Db b /\ oid_eqb id (pair_of b) = true;
  gd_lms : forall l m b, In (l, m) (p_lms p) -> In b (me_factors m) \/ In b (me_cons m) ->
    Db b /\ landmark_key C b = l /\ is_special C (b_from b) || is_special C (b_to b) = true;
  gd_robots : forall c, In c (p_robots p) -> E c }.
Lemma chr_from b : Db b -> chr (f (b_from b)) = r (chr (b_from b)).
Proof. intro H. apply (Hchr _ H). left; auto. Qed.
Lemma chr_to b : Db b -> chr (f (b_to b)) = r (chr (b_to b)).
Proof. intro H. apply (Hchr _ H). right; left; auto. Qed.
Lemma special_r k : chr (f k) = r (chr k) -> is_special C' (f k) = is_special C k.
Proof. intro H. unfold is_special. cbn [nm_config c_special]. rewrite H. apply existsb_r. Qed.
Lemma of_r b : t_of O (nb b) = t_of O b.
Proof. apply Hof; reflexivity. Qed.
Lemma landmark_r b : Db b -> landmark_key C' (nb b) = f (landmark_key C b).
Proof.
  intro H. unfold landmark_key. cbn [nm_bf b_from b_to]. rewrite (special_r _ (chr_from H)).
  destruct (is_special C (b_from b)); auto.
Qed.
Lemma good_trajs p x : good p -> good (set_trajs p x).
Proof. intros [A1 A2 A3 A4 A5]. constructor; auto. Qed.
Lemma good_total p x : good p -> good (set_total p x).
Proof. intros [A1 A2 A3 A4 A5]. constructor; auto. Qed.
Lemma good_good p x : good p -> good (set_good p x).
Proof. intros [A1 A2 A3 A4 A5]. constructor; auto. Qed.
Lemma good_order p x : good p -> good (set_order p x).
Proof. intros [A1 A2 A3 A4 A5]. constructor; auto. Qed.
Lemma good_ignored p x : good p -> good (set_ignored p x).
Proof. intros [A1 A2 A3 A4 A5]. constructor; auto. Qed.
Lemma good_between p c a b : good p -> good (snd (traj_between p c a b)).
Proof. intro H. unfold traj_between. destruct (get_between _ a b). apply good_trajs, H. Qed.

(** ** The tests *)
Lemma odom_consistent_r p b : good p -> Db b -> chr (b_from b) = chr (b_to b) ->
  rel_res (fun x => good (snd x)) (fun x => (fst x, np (snd x))) (is_odom_consistent C p b) (is_odom_consistent C' (np p) (nb b)).
Proof.
  intros G H Z. unfold is_odom_consistent. cbn [nm_config c_odom_check]. destruct (negb (c_odom_check C)); [split; auto|].
  cbn [nm_bf b_from b_to]. rewrite (chr_from H), traj_between_r by (auto using chr_from, chr_to; congruence).
  fold (nb b). rewrite of_r. pose proof (good_between (chr (b_from b)) (b_from b) (b_to b) G) as G'.
  destruct (traj_between p (chr (b_from b)) (b_from b) (b_to b)) as [t p']. cbn [fst snd] in *.
  destruct (t_of O b); cbn [rel_res fst snd]; auto.
Qed.
Lemma same_pair b b' id : oid_eqb id (pair_of b) = true -> oid_eqb id (pair_of b') = true ->
  (chr (b_from b) = chr (b_from b') /\ chr (b_to b) = chr (b_to b')) \/ (chr (b_from b) = chr (b_to b') /\ chr (b_to b) = chr (b_from b')).
Proof.
  intros A B. rewrite oid_eqb_sym in A. pose proof (oid_eqb_trans _ _ _ A B) as T. apply oid_eqb_spec in T.
  unfold pair_of in T. cbn [fst snd] in T. tauto.
Qed.
Lemma loops_consistent_r p b b' id : good p -> Db b -> Db b' -> oid_eqb id (pair_of b) = true -> oid_eqb id (pair_of b') = true ->
  rel_res (fun x => good (snd x)) (fun x => (fst x, np (snd x))) (are_loops_consistent C p b b') (are_loops_consistent C' (np p) (nb b) (nb b')).
Proof.
  intros G H H' Z Z'. unfold are_loops_consistent. cbn [nm_config c_loop_check]. destruct (negb (c_loop_check C)); [split; auto|].
  rewrite !of_r. destruct (t_of O b) as [t|]; [|reflexivity]. destruct (t_of O b') as [t'|]; [|reflexivity].
  cbn [nm_bf b_from b_to]. rewrite (chr_from H), (chr_from H'), (chr_to H), r_eqb.
  assert (X : exists c d, (if (chr (b_from b) =? chr (b_from b'))%N then (b_from b', b_to b') else (b_to b', b_from b')) = (c, d) /\
    (if (chr (b_from b) =? chr (b_from b'))%N then (f (b_from b'), f (b_to b')) else (f (b_to b'), f (b_from b'))) = (f c, f d) /\
    chr (f c) = r (chr c) /\ chr (f d) = r (chr d) /\ chr (b_from b) = chr c /\ chr (b_to b) = chr d).
  { destruct (same_pair _ _ _ Z Z') as [[P1 P2]|[P1 P2]]; destruct (N.eqb_spec (chr (b_from b)) (chr (b_from b'))) as [Q|Q].
    - exists (b_from b'), (b_to b'). repeat split; auto using chr_from, chr_to.
    - congruence.
    - exists (b_from b'), (b_to b'). repeat split; auto using chr_from, chr_to. congruence.
    - exists (b_to b'), (b_from b'). repeat split; auto using chr_from, chr_to. }
  destruct X as (c & d & -> & -> & Fc & Fd & Ec & Ed).
  rewrite traj_between_r by (auto using chr_from, chr_to; congruence).
  pose proof (good_between (chr (b_from b)) (b_from b) c G) as G1.
  destruct (traj_between p (chr (b_from b)) (b_from b) c) as [t1 p1]. cbn [fst snd] in *.
  rewrite traj_between_r by (auto using chr_from, chr_to; congruence).
  pose proof (good_between (chr (b_to b)) (b_to b) d G1) as G2.
  destruct (traj_between p1 (chr (b_to b)) (b_to b) d) as [t2 p2]. cbn [fst snd] in *.
  split; auto.
Qed.
Lemma lc_bits_r fs : forall b id p bits, good p -> Db b -> oid_eqb id (pair_of b) = true ->
  (forall x, In x fs -> Db x /\ oid_eqb id (pair_of x) = true) ->
  rel_res (fun x => good (snd x)) (fun x => (fst x, np (snd x))) (lc_bits C fs b p bits) (lc_bits C' (map nb fs) (nb b) (np p) bits).
Proof.
  induction fs as [|x fs IH]; intros b id p bits G H Z A; cbn [map lc_bits]; [split; auto|].
  eapply rel_res_bind.
  - destruct (A x (or_introl eq_refl)). eapply loops_consistent_r; eauto.
  - intros [v p'] G'. cbn [fst snd] in *. apply (IH b id); auto. intros y Hy. apply A. right; auto.
Qed.

Notation lc_get := (uget oid_eqb (@meas_default O)).
Notation lm_get := (uget N.eqb (@meas_default O)).
Notation nlc := (nm_umap ni ne).
Notation nlm := (nm_umap f ne).
Lemma lc_get_r id m : lc_get (ni id) (nlc m) = ne (lc_get id m).
Proof. exact (uget_r oid_eqb oid_eqb ni ne ni_eqb meas_default id m). Qed.
Lemma lc_set_r id x m : lc_set (ni id) (ne x) (nlc m) = nlc (lc_set id x m).
Proof. exact (uset_r oid_eqb oid_eqb ni ne ni_eqb id x m). Qed.
Lemma lc_find_r id m : lc_find (ni id) (nlc m) = option_map ne (lc_find id m).
Proof. exact (ufind_r oid_eqb oid_eqb ni ne ni_eqb id m). Qed.
Lemma lm_get_r l m : lm_get (f l) (nlm m) = ne (lm_get l m).
Proof. exact (uget_r N.eqb N.eqb f ne f_eqb meas_default l m). Qed.
Lemma lm_set_r l x m : n_set (f l) (ne x) (nlm m) = nlm (n_set l x m).
Proof. exact (uset_r N.eqb N.eqb f ne f_eqb l x m). Qed.

Definition lc_item (id : obsid) (b : bf) : Prop := Db b /\ oid_eqb id (pair_of b) = true.
Definition lm_item (l : key) (b : bf) : Prop :=
  Db b /\ landmark_key C b = l /\ is_special C (b_from b) || is_special C (b_to b) = true.
Definition holds (Q : bf -> Prop) (m : meas) : Prop := forall b, In b (me_factors m) \/ In b (me_cons m) -> Q b.
Lemma good_lc_get p id : good p -> holds (lc_item id) (lc_get id (p_lcs p)).
Proof.
  intros G b Hb. unfold uget in Hb. destruct (ufind oid_eqb id (p_lcs p)) as [m|] eqn:X.
  - apply ufind_In in X. destruct X as (k & Ek & Hk). destruct (gd_lcs G _ _ b Hk Hb) as [A B]. split; auto.
    eapply oid_eqb_trans; eauto.
  - destruct Hb as [[]|[]].
Qed.
Lemma good_lm_get p l : good p -> holds (lm_item l) (lm_get l (p_lms p)).
Proof.
  intros G b Hb. unfold uget in Hb. destruct (ufind N.eqb l (p_lms p)) as [m|] eqn:X.
  - apply ufind_In in X. destruct X as (k & Ek & Hk). apply N.eqb_eq in Ek. subst k. exact (gd_lms G _ _ b Hk Hb).
  - destruct Hb as [[]|[]].
Qed.
Lemma good_lcs p m : good p -> (forall id x, In (id, x) m -> holds (lc_item id) x) -> good (set_lcs p m).
Proof. intros [A1 A2 A3 A4 A5] H. constructor; auto. intros id x b Hx Hb. exact (H id x Hx b Hb). Qed.
Lemma good_lms p m : good p -> (forall l x, In (l, x) m -> holds (lm_item l) x) -> good (set_lms p m).
Proof. intros [A1 A2 A3 A4 A5] H. constructor; auto. intros id x b Hx Hb. exact (H id x Hx b Hb). Qed.
Lemma lcs_set_holds (m : umap obsid meas) id x : (forall i y, In (i, y) m -> holds (lc_item i) y) -> holds (lc_item id) x ->
  forall i y, In (i, y) (lc_set id x m) -> holds (lc_item i) y.
Proof.
  intros H Hx i y Hi. apply In_uset_2 in Hi. destruct Hi as [Hi|(k & Hk & Z)]; [eauto|]. injection Z as -> ->.
  destruct Hk as [->|Hk]; auto. intros b Hb. destruct (Hx b Hb) as [B1 B2]. split; auto.
  eapply oid_eqb_trans; [|exact B2]. rewrite oid_eqb_sym. exact Hk.
Qed.
Lemma lms_set_holds (m : umap key meas) l x : (forall i y, In (i, y) m -> holds (lm_item i) y) -> holds (lm_item l) x ->
  forall i y, In (i, y) (n_set l x m) -> holds (lm_item i) y.
Proof.
  intros H Hx i y Hi. apply In_uset_2 in Hi. destruct Hi as [Hi|(k & Hk & Z)]; [eauto|]. injection Z as -> ->.
  destruct Hk as [->|Hk]; auto. apply N.eqb_eq in Hk. subst k. auto.
Qed.
Lemma good_lc_all p : good p -> forall i y, In (i, y) (p_lcs p) -> holds (lc_item i) y.
Proof. intros G i y Hi b Hb. exact (gd_lcs G _ _ b Hi Hb). Qed.
Lemma good_lm_all p : good p -> forall i y, In (i, y) (p_lms p) -> holds (lm_item i) y.
Proof. intros G i y Hi b Hb. exact (gd_lms G _ _ b Hi Hb). Qed.
Lemma good_lc_set p id x : good p -> holds (lc_item id) x -> good (set_lcs p (lc_set id x (p_lcs p))).
Proof. intros G H. apply good_lcs; auto. apply lcs_set_holds; auto. apply good_lc_all; auto. Qed.
Lemma good_lm_set p l x : good p -> holds (lm_item l) x -> good (set_lms p (n_set l x (p_lms p))).
Proof. intros G H. apply good_lms; auto. apply lms_set_holds; auto. apply good_lm_all; auto. Qed.
Lemma np_set_lcs p m : set_lcs (np p) (nlc m) = np (set_lcs p m).
Proof. reflexivity. Qed.
Lemma np_set_lms p m : set_lms (np p) (nlm m) = np (set_lms p m).
Proof. reflexivity. Qed.

Lemma increment_adj_r p id b : good p -> lc_item id b ->
  rel_res good np (increment_adj C id b p) (increment_adj C' (ni id) (nb b) (np p)).
Proof.
  intros G [H Z]. unfold increment_adj. cbn [nm_pcm p_lcs]. rewrite lc_get_r. cbn [nm_meas me_factors me_cons me_adj]. rewrite map_length.
  pose proof (good_lc_get id G) as A. set (m := lc_get id (p_lcs p)) in *.
  destruct (length (me_factors m) <=? 1).
  - change (Meas (map nb (me_factors m)) (map nb (me_cons m)) (zero_mat (length (me_factors m))))
      with (ne (Meas (me_factors m) (me_cons m) (zero_mat (length (me_factors m))))).
    rewrite lc_set_r. split; [reflexivity|]. apply good_lc_set; auto.
  - destruct (dims_are (me_adj m) (length (me_factors m) - 1)); [|reflexivity].
    rewrite firstn_map. fold (np p). eapply rel_res_bind.
    + apply lc_bits_r with (id := id); auto. intros x Hx. apply A. left. eapply firstn_In_r; eauto.
    + intros [bits p'] G'. cbn [fst snd] in *. cbn [nm_pcm p_lcs].
      change (Meas (map nb (me_factors m)) (map nb (me_cons m)) (grow_mat (me_adj m) bits (length (me_factors m) - 1)))
        with (ne (Meas (me_factors m) (me_cons m) (grow_mat (me_adj m) bits (length (me_factors m) - 1)))).
      rewrite lc_set_r. split; [reflexivity|]. apply good_lc_set; auto.
Qed.

Lemma lm_bits_r fs : forall l b p bits, good p -> lm_item l b -> (forall x, In x fs -> lm_item l x) ->
  rel_res (fun x => good (snd x)) (fun x => (fst x, np (snd x))) (lm_bits l fs b p bits) (lm_bits (f l) (map nb fs) (nb b) (np p) bits).
Proof.
  induction fs as [|x fs IH]; intros l b p bits G Hb A; cbn [map lm_bits]; [split; auto|].
  cbn [nm_bf b_from]. rewrite !f_eqb. destruct ((b_from x =? l)%N || (b_from b =? l)%N) eqn:Z; [split; auto|].
  fold (nb x). fold (nb b). rewrite !of_r.
  destruct (t_of O x) as [tx|]; [|reflexivity]. destruct (t_of O b) as [tb|]; [|reflexivity].
  destruct (A x (or_introl eq_refl)) as (X1 & X2 & X3). destruct Hb as (B1 & B2 & B3).
  apply orb_false_iff in Z. destruct Z as [Z1 Z2]. apply N.eqb_neq in Z1, Z2.
  assert (Tx : b_to x = l /\ is_special C (b_to x) = true).
  { unfold landmark_key in X2. destruct (is_special C (b_from x)); [congruence|]. auto. }
  assert (Tb : b_to b = l /\ is_special C (b_to b) = true).
  { unfold landmark_key in B2. destruct (is_special C (b_from b)); [congruence|]. auto. }
  destruct Tx as [Tx Sx], Tb as [Tb Sb].
  rewrite (chr_from X1), traj_between_r; auto using chr_from.
  2:{ intro N1. split; [apply (Hzero (b := x) (b' := b))|apply (Hzero (b := b) (b' := x))]; auto; congruence. }
  pose proof (good_between (chr (b_from x)) (b_from x) (b_from b) G) as G'.
  destruct (traj_between p (chr (b_from x)) (b_from x) (b_from b)) as [t p']. cbn [fst snd] in *.
  apply IH; auto. split; auto. intros y Hy. apply A. right; auto.
Qed.
Lemma increment_landmark_adj_r p l b : good p -> lm_item l b ->
  rel_res good np (increment_landmark_adj l b p) (increment_landmark_adj (f l) (nb b) (np p)).
Proof.
  intros G H. unfold increment_landmark_adj. cbn [nm_pcm p_lms]. rewrite lm_get_r. cbn [nm_meas me_factors me_cons me_adj]. rewrite map_length.
  pose proof (good_lm_get l G) as A. set (m := lm_get l (p_lms p)) in *.
  destruct (length (me_factors m) <=? 1).
  - change (Meas (map nb (me_factors m)) (map nb (me_cons m)) (zero_mat (length (me_factors m))))
      with (ne (Meas (me_factors m) (me_cons m) (zero_mat (length (me_factors m))))).
    rewrite lm_set_r. split; [reflexivity|]. apply good_lm_set; auto.
  - destruct (dims_are (me_adj m) (length (me_factors m) - 1)); [|reflexivity].
    rewrite firstn_map. fold (np p). eapply rel_res_bind.
    + apply lm_bits_r; eauto. intros x Hx. apply A. left. eapply firstn_In_r; eauto.
    + intros [[bits|] p'] G'; cbn [fst snd] in *; [|split; auto]. cbn [nm_pcm p_lms].
      change (Meas (map nb (me_factors m)) (map nb (me_cons m)) (grow_mat (me_adj m) bits (length (me_factors m) - 1)))
        with (ne (Meas (me_factors m) (me_cons m) (grow_mat (me_adj m) bits (length (me_factors m) - 1)))).
      rewrite lm_set_r. split; [reflexivity|]. apply good_lm_set; auto.
Qed.

(** ** Recording loop closures *)
Notation nnn := (nm_umap ni (fun n : nat => n)).
Lemma nn_incr_r id nn : nn_incr (ni id) (nnn nn) = nnn (nn_incr id nn).
Proof.
  unfold nn_incr. pose proof (ufind_r oid_eqb oid_eqb ni (fun n : nat => n) ni_eqb id nn) as X.
  destruct (ufind oid_eqb id nn) as [c|]; cbn [option_map] in X.
  - assert (X' : lc_find (ni id) (nnn nn) = Some c) by exact X. rewrite X'.
    exact (uset_r oid_eqb oid_eqb ni (fun n : nat => n) ni_eqb id (S c) nn).
  - assert (X' : lc_find (ni id) (nnn nn) = None) by exact X. rewrite X'. unfold nm_umap. rewrite map_app. reflexivity.
Qed.
Lemma ne_add m b : meas_add (ne m) (nb b) = ne (meas_add m b).
Proof. unfold meas_add, nm_meas. cbn [me_factors me_cons me_adj]. rewrite map_app. reflexivity. Qed.
Lemma holds_add Q m b : holds Q m -> Q b -> holds Q (meas_add m b).
Proof.
  intros H Hb x [Hx|Hx]; cbn [meas_add me_factors me_cons] in Hx; [|apply H; auto].
  apply in_app_or in Hx. destruct Hx as [Hx|[<-|[]]]; auto.
Qed.
Definition good_st (x : pcm * numnew) : Prop := good (fst x).
Definition n_st (x : pcm * numnew) : pcm * numnew := (np (fst x), nnn (snd x)).
Lemma parse_one_r vs b st : good_st st -> Db b -> rel_res good_st n_st (parse_one C vs b st) (parse_one C' (nm vs) (nb b) (n_st st)).
Proof.
  destruct st as [p nn]. intros G H. unfold good_st, n_st in *. cbn [fst snd] in *. unfold parse_one.
  cbn [nm_bf b_from b_to]. rewrite !kmem_r, (special_r _ (chr_from H)), (special_r _ (chr_to H)).
  destruct (negb (kmem (b_from b) vs) || negb (kmem (b_to b) vs)); [split; auto|].
  fold (nb b). rewrite (landmark_r H).
  destruct (is_special C (b_from b) || is_special C (b_to b)) eqn:Z.
  - assert (L : lm_item (landmark_key C b) b) by (split; auto).
    cbn [nm_pcm p_lms]. rewrite lm_get_r, ne_add, lm_set_r.
    eapply rel_res_bind.
    + apply (increment_landmark_adj_r (p := set_total (set_lms p (n_set (landmark_key C b) (meas_add (lm_get (landmark_key C b) (p_lms p)) b)
        (p_lms p))) (S (p_total p)))); auto. apply good_total, good_lm_set; auto. apply holds_add; auto. apply good_lm_get; auto.
    + intros p2 G2. split; auto.
  - rewrite (chr_from H), (chr_to H), r_eqb. fold (np p).
    apply rel_res_bind with (ga := fun x => good (snd x)) (ra := fun x => (fst x, np (snd x))).
    + destruct (N.eqb_spec (chr (b_from b)) (chr (b_to b))) as [Q|Q]; [apply odom_consistent_r; auto|split; auto].
    + intros [ok p1] G1. cbn [fst snd] in *. destruct ok; [|split; auto].
      change (r (chr (b_from b)), r (chr (b_to b))) with (ni (chr (b_from b), chr (b_to b))).
      set (id := (chr (b_from b), chr (b_to b))). assert (L : lc_item id b) by (split; auto; apply oid_eqb_refl).
      cbn [nm_pcm p_lcs]. rewrite lc_get_r, ne_add, lc_set_r.
      set (p3 := set_total (set_order (set_lcs p1 (lc_set id (meas_add (lc_get id (p_lcs p1)) b) (p_lcs p1)))
        (p_order (set_lcs p1 (lc_set id (meas_add (lc_get id (p_lcs p1)) b) (p_lcs p1))) ++ [id]))
        (S (p_total (set_lcs p1 (lc_set id (meas_add (lc_get id (p_lcs p1)) b) (p_lcs p1)))))).
      assert (G3 : good p3).
      { apply good_total, good_order, good_lc_set; auto. apply holds_add; auto. apply good_lc_get; auto. }
      match goal with |- context [increment_adj C' (ni id) (nb b) ?x] => replace x with (np p3) end.
      2:{ unfold p3, nm_pcm, set_total, set_order, set_lcs.
          cbn [p_odom p_special p_lcs p_trajs p_lms p_order p_total p_good p_ignored p_robots]. rewrite map_app. reflexivity. }
      apply rel_res_bind with (ga := good) (ra := np).
      * cbn [nm_config c_loop_check]. destruct (c_loop_check C); [apply increment_adj_r; auto|split; auto].
      * intros p4 G4. split; auto. unfold n_st. cbn [fst snd]. rewrite nn_incr_r. reflexivity.
Qed.
Lemma parse_all_r vs bs p : good p -> (forall b, In b bs -> Db b) ->
  rel_res good_st n_st (parse_all C vs bs p) (parse_all C' (nm vs) (map nb bs) (np p)).
Proof.
  intros G H. unfold parse_all. apply (rel_res_fold good_st n_st nb (parse_one C vs) (parse_one C' (nm vs)) bs (p, [])); auto.
  intros b st Hb Hst. apply parse_one_r; auto.
Qed.

(** ** Choosing the inliers *)
Lemma select_r fs k data : rel_res (fun cs => incl cs fs) (map nb) (select fs k data) (select (map nb fs) k data).
Proof.
  unfold select. destruct (k <? 0)%Z; [reflexivity|]. rewrite <- (map_id (seq 0 (Z.to_nat k))) at 2.
  apply (rel_res_fold (fun cs => incl cs fs) (map nb) (fun x => x)); [intros x []|].
  intros i cs _ Hi. destruct (vget data i) as [ix|]; cbn [rbind]; [|reflexivity].
  unfold vget. rewrite nth_error_map. destruct (nth_error fs ix) as [x|] eqn:X; cbn [option_map rbind]; [|reflexivity].
  split; [rewrite map_app; reflexivity|]. intros y Hy. apply in_app_or in Hy. destruct Hy as [Hy|[<-|[]]]; auto.
  eapply nth_error_In; eauto.
Qed.
Lemma heu_inliers_r Q m : holds Q m -> rel_res (holds Q) ne (heu_inliers m) (heu_inliers (ne m)).
Proof.
  intro H. unfold heu_inliers. cbn [nm_meas me_factors me_cons me_adj].
  destruct (find_max_clique_heu (me_adj m)) as [[k data]|]; cbn [rbind]; [|reflexivity].
  eapply rel_res_bind; [apply select_r|]. intros cs Hc. split; [reflexivity|].
  intros b [Hb|Hb]; cbn [me_factors me_cons] in Hb; apply H; left; auto.
Qed.
Lemma pair_inliers_r Q m : holds Q m -> rel_res (holds Q) ne (pair_inliers C m) (pair_inliers C' (ne m)).
Proof.
  intro H. unfold pair_inliers. cbn [nm_config c_loop_check]. destruct (c_loop_check C); [apply heu_inliers_r; auto|].
  split; [reflexivity|]. intros b [Hb|Hb]; cbn [me_factors me_cons] in Hb; apply H; left; auto.
Qed.
Lemma umapM_r K K' (g : K -> K') (Q : K -> bf -> Prop) (h h' : meas -> res meas) m :
  (forall k x, holds (Q k) x -> rel_res (holds (Q k)) ne (h x) (h' (ne x))) -> (forall k x, In (k, x) m -> holds (Q k) x) ->
  rel_res (fun m => forall k x, In (k, x) m -> holds (Q k) x) (nm_umap g ne) (umapM h m) (umapM h' (nm_umap g ne m)).
Proof.
  intro Hh. induction m as [|[k x] m IH]; intro H; cbn [nm_umap map umapM fst snd].
  - split; [reflexivity|]. intros ? ? [].
  - eapply rel_res_bind; [apply (Hh k), H; left; auto|]. intros x' Hx. fold (nm_umap g ne m).
    eapply rel_res_bind; [apply IH; intros; apply H; right; auto|]. intros m' Hm. split; [reflexivity|].
    intros k0 x0 [Z|Z]; [injection Z as <- <-; auto|auto].
Qed.
Lemma count_cons_r K K' (g : K -> K') m : count_cons (O := O) (nm_umap g ne m) = count_cons m.
Proof.
  unfold count_cons. induction m as [|[k x] m IH]; cbn [nm_umap map fold_right fst snd]; auto. fold (nm_umap g ne m).
  rewrite IH. cbn [nm_meas me_cons]. rewrite map_length. reflexivity.
Qed.
Lemma good_found p m l n : good p -> (forall id x, In (id, x) m -> holds (lc_item id) x) ->
  (forall id x, In (id, x) l -> holds (lm_item id) x) -> good (set_good (set_lms (set_lcs p m) l) n).
Proof. intros G A B. apply good_good, good_lms; auto. apply good_lcs; auto. Qed.
Lemma find_inliers_r p : good p -> rel_res good np (find_inliers C p) (find_inliers C' (np p)).
Proof.
  intro G. unfold find_inliers. cbn [nm_pcm p_lcs p_lms].
  eapply rel_res_bind; [apply umapM_r with (Q := lc_item); [intros; apply pair_inliers_r; auto|apply good_lc_all; auto]|].
  intros m Hm. eapply rel_res_bind; [apply umapM_r with (Q := lm_item); [intros; apply heu_inliers_r; auto|apply good_lm_all; auto]|].
  intros l Hl. rewrite !count_cons_r. split; [reflexivity|]. apply good_found; auto.
Qed.
Lemma inc_inliers_r Q n m : holds Q m -> rel_res (holds Q) ne (inc_inliers n m) (inc_inliers n (ne m)).
Proof.
  intro H. unfold inc_inliers. cbn [nm_meas me_factors me_cons me_adj]. rewrite map_length.
  destruct (find_max_clique_heu_inc (me_adj m) n (length (me_cons m))) as [[k data]|]; cbn [rbind]; [|reflexivity].
  destruct (k =? 0)%Z; [split; auto|].
  eapply rel_res_bind; [apply select_r|]. intros cs Hc. split; [reflexivity|].
  intros b [Hb|Hb]; cbn [me_factors me_cons] in Hb; apply H; left; auto.
Qed.
Lemma find_inliers_inc_r nn p : good p -> rel_res good np (find_inliers_inc nn p) (find_inliers_inc (nnn nn) (np p)).
Proof.
  intro G. unfold find_inliers_inc. cbn [nm_pcm p_lcs p_lms].
  eapply rel_res_bind.
  - apply (rel_res_fold (fun m => forall id x, In (id, x) m -> holds (lc_item id) x) nlc
      (fun x : obsid * nat => (ni (fst x), snd x))); [apply good_lc_all; auto|].
    intros [id n] m _ Hm. cbn [fst snd]. rewrite lc_get_r.
    assert (Hi : holds (lc_item id) (lc_get id m)).
    { intros b Hb. unfold uget in Hb. destruct (ufind oid_eqb id m) as [x|] eqn:X.
      - apply ufind_In in X. destruct X as (k & Ek & Hk). destruct (Hm _ _ Hk b Hb) as [A B]. split; auto. eapply oid_eqb_trans; eauto.
      - destruct Hb as [[]|[]]. }
    eapply rel_res_bind; [apply inc_inliers_r, Hi|]. intros x Hx. rewrite lc_set_r. split; [reflexivity|].
    apply lcs_set_holds; auto.
  - intros m Hm. eapply rel_res_bind; [apply umapM_r with (Q := lm_item); [intros; apply heu_inliers_r; auto|apply good_lm_all; auto]|].
    intros l Hl. rewrite !count_cons_r. split; [reflexivity|]. apply good_found; auto.
Qed.

(** ** Sorting the factors of a call *)
Lemma next_r b : Db b -> (ksucc (f (b_from b)) =? f (b_to b))%N = (ksucc (b_from b) =? b_to b)%N.
Proof. intro H. apply eq_true_iff_eq. rewrite !N.eqb_eq. apply Hnext, H. Qed.
Lemma classify_r vs x : D x -> classify C' (nm vs) (nf x) = classify C vs x.
Proof.
  destruct x as [b|k p|k t|ks t]; intro H; auto. cbn [nm_factor classify nm_bf b_from b_to].
  rewrite !kmem_r, (special_r _ (chr_from H)), (special_r _ (chr_to H)), (next_r H). reflexivity.
Qed.
Lemma n_find_r c (m : umap N (traj O)) : @ufind N (traj O) N.eqb (r c) (nt m) = @option_map (traj O) (traj O) nm (@ufind N (traj O) N.eqb c m).
Proof. exact (ufind_r N.eqb N.eqb r (@nm_map f (t_T O)) r_eqb c m). Qed.
Lemma n_set_r c (tr : traj O) (m : umap N (traj O)) : @uset N (traj O) N.eqb (r c) (nm tr) (nt m) = nt (@uset N (traj O) N.eqb c tr m).
Proof. exact (uset_r N.eqb N.eqb r (@nm_map f (t_T O)) r_eqb c tr m). Qed.
Notation rel_p := (rel_out good np).
Definition nu_tt (x : unit) : unit := x.
Lemma good_odom p x : good p -> (forall b, In b x -> Db b) -> good (set_odom p x).
Proof. intros [A1 A2 A3 A4 A5] H. constructor; auto. Qed.
Lemma good_special p x : good p -> (forall b, In b x -> D b) -> good (set_special p x).
Proof. intros [A1 A2 A3 A4 A5] H. constructor; auto. Qed.
Lemma good_robots p x : good p -> (forall b, In b x -> E b) -> good (set_robots p x).
Proof. intros [A1 A2 A3 A4 A5] H. constructor; auto. Qed.
Lemma E_to b : Db b -> E (chr (b_to b)).
Proof. intro H. apply (HE _ H). right; left; auto. Qed.
Lemma update_odom_r vs b p : good p -> Db b -> rel_p nu_tt (update_odom vs b p) (update_odom (nm vs) (nb b) (np p)).
Proof.
  intros G H. unfold update_odom. cbn [nm_bf b_from b_to]. fold (nb b). rewrite of_r, (chr_to H).
  assert (Z : set_odom (np p) (p_odom (np p) ++ [nb b]) = np (set_odom p (p_odom p ++ [b]))).
  { unfold nm_pcm, set_odom. cbn [p_odom p_special p_lcs p_trajs p_lms p_order p_total p_good p_ignored p_robots].
    rewrite map_app. reflexivity. }
  rewrite Z. clear Z. assert (G1 : good (set_odom p (p_odom p ++ [b]))).
  { apply good_odom; auto. intros x Hx. apply in_app_or in Hx. destruct Hx as [Hx|[<-|[]]]; auto. exact (gd_odom G x Hx). }
  set (p1 := set_odom p (p_odom p ++ [b])) in *.
  destruct (t_of O b) as [d|]; [|reflexivity].
  apply rel_out_bind with (ra := nu_tt).
  - cbn [nm_pcm p_trajs p_robots]. rewrite n_find_r. destruct (n_find (chr (b_to b)) (p_trajs p1)) as [tr|]; cbn [option_map]; [split; auto|].
    rewrite kfind_r. destruct (kfind (b_from b) vs) as [[x|tg]|]; try (split; auto; fail).
    split.
    + f_equal. unfold nm_pcm, set_robots, set_trajs. cbn [p_odom p_special p_lcs p_trajs p_lms p_order p_total p_good p_ignored p_robots].
      rewrite map_app. f_equal. rewrite <- n_set_r. reflexivity.
    + apply good_robots; [apply good_trajs; auto|]. intros c Hc. apply in_app_or in Hc. destruct Hc as [Hc|[<-|[]]]; [exact (gd_robots G1 _ Hc)|].
      apply E_to, H.
  - intros p2 _ G2. cbn [nm_pcm p_trajs]. rewrite tr_get_r, ttouch_r, tget_r, kset_r, n_set_r. split; [reflexivity|]. apply good_trajs; auto.
Qed.
Lemma first_landmark_r b p : good p -> Db b -> is_special C (b_from b) || is_special C (b_to b) = true ->
  first_landmark C' (nb b) (np p) = np (first_landmark C b p) /\ good (first_landmark C b p).
Proof.
  intros G H Z. unfold first_landmark. rewrite (landmark_r H). split.
  - unfold nm_pcm, set_total, set_lms. cbn [p_odom p_special p_lcs p_trajs p_lms p_order p_total p_good p_ignored p_robots].
    f_equal. rewrite <- lm_set_r. reflexivity.
  - apply good_total, good_lm_set; auto. intros x [[<-|[]]|[<-|[]]]; split; auto.
Qed.
Definition n_acc (x : list bf * bool) : list bf * bool := (map nb (fst x), snd x).
Definition good_acc (x : list bf * bool) : Prop := forall b, In b (fst x) -> Db b.
Definition rel_acc (x x' : outcome pcm (list bf * bool)) : Prop :=
  rel_p n_acc x x' /\ match x with Ok _ a => good_acc a | _ => True end.
Lemma proc_factor_r nv vs of p acc : good p -> good_acc acc -> match of with Some x => D x | None => True end ->
  rel_acc (proc_factor C nv vs of p acc) (proc_factor C' (nm nv) (nm vs) (option_map nf of) (np p) (n_acc acc)).
Proof.
  intros G A H. destruct of as [x|]; cbn [option_map proc_factor]; [|split; [split|]; auto].
  pose proof (classify_r nv H) as K'.
  assert (SP : rel_acc (Ok (set_special p (p_special p ++ [x])) (fst acc, true))
                       (Ok (set_special (np p) (p_special (np p) ++ [nf x])) (fst (n_acc acc), true))).
  { split; [split|]; auto.
    - f_equal. unfold nm_pcm, set_special. cbn [p_odom p_special p_lcs p_trajs p_lms p_order p_total p_good p_ignored p_robots].
      rewrite map_app. reflexivity.
    - apply good_special; auto. intros y Hy. apply in_app_or in Hy. destruct Hy as [Hy|[<-|[]]]; auto. exact (gd_special G _ Hy). }
  destruct x as [b|k q|k t|ks t]; try exact SP. cbn [nm_factor] in *.
  rewrite K'. destruct (classify C nv (FBetween b)) eqn:K; try exact SP.
  - pose proof (update_odom_r vs G H) as U. split.
    + apply rel_out_bind with (ra := nu_tt); auto. intros p' _ G'. split; auto.
    + destruct (update_odom vs b p); cbn [obind]; auto.
  - assert (Z : is_special C (b_from b) || is_special C (b_to b) = true).
    { unfold classify in K. destruct (is_special C (b_from b) || is_special C (b_to b)); auto.
      destruct ((ksucc (b_from b) =? b_to b)%N && kmem (b_to b) nv); discriminate K. }
    destruct (first_landmark_r G H Z) as [-> G']. split; [split|]; auto.
  - cbn [nm_bf b_from b_to]. rewrite f_eqb. destruct (b_from b =? b_to b)%N; [split; [split|]; auto|].
    split; [split|]; auto.
    + unfold n_acc. cbn [fst snd]. rewrite map_app. reflexivity.
    + intros y Hy. cbn [fst] in Hy. apply in_app_or in Hy. destruct Hy as [Hy|[<-|[]]]; auto.
Qed.
Definition good_graph (g : graph_t) : Prop := forall x, In (Some x) g -> D x.
Lemma proc_factors_r nv vs fs : forall p acc, good p -> good_acc acc -> good_graph fs ->
  rel_acc (proc_factors C nv vs fs p acc) (proc_factors C' (nm nv) (nm vs) (ng fs) (np p) (n_acc acc)).
Proof.
  induction fs as [|of fs IH]; intros p acc G A H; cbn [nm_graph map proc_factors]; [split; [split|]; auto|].
  fold (ng fs). assert (Ho : match of with Some x => D x | None => True end).
  { destruct of as [x|]; auto. apply H. left; auto. }
  pose proof (proc_factor_r nv vs of G A Ho) as [P Q].
  destruct (proc_factor C nv vs of p acc) as [p' acc'|p' e|u]; cbn [rel_out] in P.
  - destruct P as [-> G']. cbn [obind]. apply IH; auto. intros x Hx. apply H. right; auto.
  - destruct P as [-> G']. cbn [obind]. split; [split|]; auto.
  - rewrite P. split; [reflexivity|]; auto.
Qed.

(** ** Assembling the graph *)
Variables W W' : soracles O.
Hypothesis HW : follows f r W W'.
Notation P := (so_pcm W).
Notation P' := (so_pcm W').
Lemma ignored_r p id : ignored (np p) (ni id) = ignored p id.
Proof. unfold ignored. cbn [nm_pcm p_ignored nm_id fst snd]. rewrite !existsb_r. reflexivity. Qed.
Lemma build_lcs_r p : build_lcs P' (np p) = map nb (build_lcs P p).
Proof.
  unfold build_lcs. cbn [nm_pcm p_lcs]. rewrite (uiter_r ni ne (w_lc_order P) (w_lc_order P') (p_lcs p) (fo_lc HW)).
  induction (uiter (w_lc_order P) (p_lcs p)) as [|[id m] l IH]; cbn [nm_umap map flat_map fst snd]; auto. fold (nlc l).
  rewrite map_app, <- IH. fold (np p). rewrite ignored_r. destruct (ignored p id); auto.
Qed.
Lemma build_lms_r p : build_lms P' (np p) = map nb (build_lms P p).
Proof.
  unfold build_lms. cbn [nm_pcm p_lms]. rewrite (uiter_r f ne (w_lm_order P) (w_lm_order P') (p_lms p) (fo_lm HW)).
  induction (uiter (w_lm_order P) (p_lms p)) as [|[l m] ls IH]; cbn [nm_umap map flat_map fst snd]; auto. fold (nlm ls).
  rewrite map_app, <- IH. auto.
Qed.
Lemma graph_of_r p : graph_of P' (np p) = ng (graph_of P p).
Proof.
  unfold graph_of, build, nm_graph. rewrite build_lcs_r, build_lms_r. cbn [nm_pcm p_odom p_special].
  rewrite !map_app, !map_map. reflexivity.
Qed.
Lemma In_flat_uiter K o (m : umap K meas) (t : K -> bool) b : In b (flat_map (fun '(k, x) => if t k then [] else me_cons x) (uiter o m)) ->
  exists k x, In (k, x) m /\ In b (me_cons x).
Proof.
  intro H. apply in_flat_map in H. destruct H as ([k x] & H1 & H2). destruct (t k); [destruct H2|]. exists k, x. split; auto.
  eapply Permutation.Permutation_in; [apply uiter_perm|exact H1].
Qed.
Lemma graph_of_good p : good p -> good_graph (graph_of P p).
Proof.
  intros G x Hx. unfold graph_of in Hx. apply in_map_iff in Hx. destruct Hx as (y & Z & Hy). injection Z as ->.
  unfold build in Hy. rewrite !in_app_iff, !in_map_iff in Hy. destruct Hy as [(b & <- & Hb)|[Hy|[(b & <- & Hb)|(b & <- & Hb)]]].
  - exact (gd_odom G _ Hb).
  - exact (gd_special G _ Hy).
  - unfold build_lcs in Hb. apply (In_flat_uiter (w_lc_order P) (p_lcs p) (ignored p)) in Hb. destruct Hb as (id & m & H1 & H2).
    apply (gd_lcs G _ _ b H1). auto.
  - unfold build_lms in Hb. apply (In_flat_uiter (w_lm_order P) (p_lms p) (fun _ => false)) in Hb. destruct Hb as (id & m & H1 & H2).
    apply (gd_lms G _ _ b H1). auto.
Qed.

(** ** Alignment *)
Lemma ninsert_r c l : E c -> (forall d, In d l -> E d) -> ninsert (r c) (map r l) = map r (ninsert c l).
Proof.
  intros Hc. induction l as [|d l IH]; intro H; cbn [map ninsert]; auto.
  assert (Z : (schar (r c) <=? schar (r d))%Z = (schar c <=? schar d)%Z).
  { apply eq_true_iff_eq. rewrite !Z.leb_le. apply Hsorted; auto. apply H; left; auto. }
  rewrite Z. destruct (schar c <=? schar d)%Z; auto. cbn [map]. rewrite IH; auto. intros x Hx. apply H. right; auto.
Qed.
Lemma ninsert_In c l x : In x (ninsert c l) -> x = c \/ In x l.
Proof.
  induction l as [|d l IH]; cbn [ninsert]; [intros [<-|[]]; auto|]. destruct (schar c <=? schar d)%Z.
  - intros [<-|H]; auto.
  - intros [<-|H]; [right; left; auto|]. destruct (IH H); auto. right; right; auto.
Qed.
Lemma nsort_In l x : In x (nsort l) -> In x l.
Proof. induction l as [|d l IH]; cbn [nsort fold_right]; auto. intro H. apply ninsert_In in H. destruct H as [->|H]; [left; auto|right; auto]. Qed.
Lemma nsort_r l : (forall d, In d l -> E d) -> nsort (map r l) = map r (nsort l).
Proof.
  induction l as [|d l IH]; intro H; cbn [map nsort fold_right]; auto. fold (nsort l). fold (nsort (map r l)).
  rewrite IH by (intros x Hx; apply H; right; auto). apply ninsert_r; [apply H; left; auto|].
  intros x Hx. apply H. right. apply nsort_In, Hx.
Qed.
Lemma robot_odom_values_r p c t : robot_odom_values (np p) (r c) t = option_map nm (robot_odom_values p c t).
Proof.
  unfold robot_odom_values. cbn [nm_pcm p_trajs]. rewrite n_find_r. destruct (n_find c (p_trajs p)) as [tr|]; cbn [option_map]; auto.
  f_equal. unfold kmapi, nm_map. rewrite !map_map. apply map_ext. intros [k x]. reflexivity.
Qed.
Lemma frame_meas_r p r0 ri b : E r0 -> Db b -> frame_meas (np p) (r r0) (r ri) (nb b) = frame_meas p r0 ri b.
Proof.
  intros H0 H. unfold frame_meas. cbn [nm_bf b_from b_to b_meas]. rewrite (chr_from H), (plain_r _ H0). cbn [nm_pcm p_trajs].
  rewrite !tr_get_r. destruct (same_char (chr (b_from b)) r0); rewrite !kfind_r; reflexivity.
Qed.
Lemma frame_all_r p r0 ri bs : E r0 -> (forall b, In b bs -> Db b) -> frame_all (np p) (r r0) (r ri) (map nb bs) = frame_all p r0 ri bs.
Proof.
  intro H0. induction bs as [|b bs IH]; intro H; cbn [map frame_all]; auto.
  rewrite (frame_meas_r _ _ H0) by (apply H; left; auto). rewrite IH by (intros x Hx; apply H; right; auto). reflexivity.
Qed.
Notation rel_v := (rel_out (fun _ : values => True) nm nu_tt).
Lemma vinsert_all_r (nv : values) : forall vs, rel_v (vinsert_all nv vs) (vinsert_all (nm nv) (nm vs)).
Proof.
  induction nv as [|[k v] nv IH]; intro vs; cbn [nm_map map vinsert_all fst snd]; [split; auto|]. rewrite kmem_r.
  destruct (kmem k vs); [split; auto|]. rewrite kset_r. apply IH.
Qed.
Lemma vupdate_all_r (nv : values) : forall vs, rel_v (vupdate_all nv vs) (vupdate_all (nm nv) (nm vs)).
Proof.
  induction nv as [|[k v] nv IH]; intro vs; cbn [nm_map map vupdate_all fst snd]; [split; auto|]. rewrite kfind_r.
  destruct (kfind k vs) as [v0|]; [|split; auto]. destruct (same_type v0 v); [|split; auto]. rewrite kset_r. apply IH.
Qed.
Lemma align_one_r p r0 ri vs : good p -> E r0 -> rel_v (align_one P p r0 ri vs) (align_one P' (np p) (r r0) (r ri) (nm vs)).
Proof.
  intros G H0. unfold align_one. change (r r0, r ri) with (ni (r0, ri)). cbn [nm_pcm p_lcs]. rewrite lc_find_r.
  destruct (lc_find (r0, ri) (p_lcs p)) as [m|] eqn:X; cbn [option_map]; [|split; auto]. fold (np p). cbn [nm_meas me_cons].
  rewrite frame_all_r; auto.
  2:{ intros b Hb. apply ufind_In in X. destruct X as (k & _ & Hk). apply (gd_lcs G _ _ b Hk). auto. }
  destruct (frame_all p r0 ri (me_cons m)) as [ts|]; [|split; auto]. rewrite (fo_avg HW). destruct (w_avg P ts) as [tf|]; [|split; auto].
  rewrite robot_odom_values_r. destruct (robot_odom_values p ri tf) as [rv|]; cbn [option_map]; [|split; auto]. apply vupdate_all_r.
Qed.
Lemma align_rest_r p r0 rs : good p -> E r0 -> forall vs, rel_v (align_rest P p r0 rs vs) (align_rest P' (np p) (r r0) (map r rs) (nm vs)).
Proof.
  intros G H0. induction rs as [|ri rs IH]; intro vs; cbn [map align_rest]; [split; auto|].
  eapply rel_out_bind; [apply align_one_r; auto|]. intros s [] _. apply IH.
Qed.
Lemma align_r p vs : good p -> rel_v (align P p vs) (align P' (np p) (nm vs)).
Proof.
  intro G. unfold align. cbn [nm_pcm p_robots]. pose proof (gd_robots G) as GR. destruct (p_robots p) as [|r0 rs] eqn:X; cbn [map]; [split; auto|].
  fold (np p).
  match goal with |- context [robot_odom_values ?q (r r0)] => replace q with (np p) by (unfold nm_pcm; rewrite X; reflexivity) end.
  rewrite robot_odom_values_r. destruct (robot_odom_values p r0 (t_pid O)) as [rv|]; cbn [option_map]; [|split; auto].
  eapply rel_out_bind; [apply vupdate_all_r|]. intros s [] _. apply align_rest_r; auto. apply GR. left; auto.
Qed.

(** ** Outlier rejection *)
Definition n_pst (x : pst O) : pst O := PSt (np (ps_pcm x)) (ng (ps_nfg x)) (nm (ps_vals x)).
Definition good_pst (x : pst O) : Prop := good (ps_pcm x) /\ good_graph (ps_nfg x).
Definition n_bool (x : bool) : bool := x.
Lemma remove_outliers_r fs nv st : good_pst st -> good_graph fs ->
  rel_out good_pst n_pst n_bool (remove_outliers C P fs nv st) (remove_outliers C' P' (ng fs) (nm nv) (n_pst st)).
Proof.
  destruct st as [p g vs]. intros [G GG] GF. cbn [ps_pcm ps_nfg] in *. unfold remove_outliers, n_pst. cbn [ps_pcm ps_nfg ps_vals].
  pose proof (vinsert_all_r nv vs) as V. destruct (vinsert_all nv vs) as [vs1 []|vs1 e|u]; cbn [rel_out] in V.
  2:{ destruct V as [-> _]. split; [reflexivity|split; auto]. }
  2:{ rewrite V. reflexivity. }
  destruct V as [-> _]. destruct fs as [|of fs]; [split; [reflexivity|split; auto]|].
  pose proof (proc_factors_r nv vs1 (fs := of :: fs) (acc := ([], false)) G) as [R A]; [intros ? []|auto|].
  cbn [nm_graph map] in *. fold (ng fs) in *. unfold n_acc in R at 2. cbn [fst snd map] in R.
  destruct (proc_factors C nv vs1 (of :: fs) p ([], false)) as [p1 [lcs opt]|p1 e|u]; cbn [rel_out] in R.
  2:{ destruct R as [-> G1]. split; [reflexivity|split; auto]. }
  2:{ rewrite R. reflexivity. }
  destruct R as [-> G1]. unfold n_acc. cbn [fst snd].
  set (x := match lcs with [] => Val (p1, opt) | _ :: _ => _ end).
  set (x' := match map nb lcs with [] => Val (np p1, opt) | _ :: _ => _ end).
  assert (X : rel_res (fun y => good (fst y)) (fun y => (np (fst y), snd y)) x x').
  { unfold x, x'. clear x x'. destruct lcs as [|b lcs]; [split; auto|].
    change (map nb (b :: lcs)) with (nb b :: map nb lcs) at 1. cbv iota.
    eapply rel_res_bind; [apply parse_all_r; auto|]. intros [p2 nn] G2. unfold good_st, n_st in *. cbn [fst snd] in *.
    eapply rel_res_bind with (ga := good) (ra := np).
    - cbn [nm_config c_incremental]. destruct (c_incremental C); [apply find_inliers_inc_r|apply find_inliers_r]; auto.
    - intros p3 G3. split; auto. }
  clearbody x x'. destruct x as [[p3 opt']|u]; cbn [rel_res] in X; [|rewrite X; reflexivity]. destruct X as [-> G3]. cbn [fst snd] in *.
  rewrite graph_of_r. cbn [nm_config c_align nm_pcm p_robots]. rewrite map_length.
  destruct (c_align C && (1 <? length (p_robots p3))).
  2:{ split; [reflexivity|]. split; auto. cbn [ps_nfg]. apply graph_of_good; auto. }
  set (p4 := set_robots p3 (nsort (p_robots p3))).
  assert (G4 : good p4).
  { apply good_robots; auto. intros c Hc. exact (gd_robots G3 _ (nsort_In _ _ Hc)). }
  fold (np p3). assert (Z : set_robots (np p3) (nsort (map r (p_robots p3))) = np p4).
  { unfold p4, nm_pcm, set_robots. cbn [p_odom p_special p_lcs p_trajs p_lms p_order p_total p_good p_ignored p_robots].
    f_equal. apply nsort_r. exact (gd_robots G3). }
  rewrite Z. pose proof (align_r vs1 G4) as AL. destruct (align P p4 vs1) as [vs2 []|vs2 e|u]; cbn [rel_out] in AL.
  - destruct AL as [-> _]. split; [reflexivity|]. split; auto. apply graph_of_good; auto.
  - destruct AL as [-> _]. split; [reflexivity|]. split; auto. apply graph_of_good; auto.
  - rewrite AL. reflexivity.
Qed.

(** ** Removals and prefixes *)
Definition n_rem (x : pcm * option (key * key)) := (np (fst x), option_map (nm_edge f) (snd x)).
Lemma holds_lc_find p id m : good p -> lc_find id (p_lcs p) = Some m -> holds (lc_item id) m.
Proof. intros G X. pose proof (good_lc_get id G) as A. unfold uget in A. rewrite X in A. exact A. Qed.
Lemma removelast_map_r (l : list bf) : removelast (map nb l) = map nb (removelast l).
Proof. induction l as [|x l IH]; auto. destruct l as [|y l]; auto. cbn [map removelast] in *. rewrite IH. reflexivity. Qed.
Lemma removelast_In_r A (l : list A) x : In x (removelast l) -> In x l.
Proof. induction l as [|y l IH]; auto. destruct l as [|z l]; [intros []|]. intros [<-|H]; [left; auto|right; auto]. Qed.
Lemma remove_id_r id p : good p ->
  rel_res (fun x => good (fst x)) n_rem (pcm_remove_last_id P id p) (pcm_remove_last_id P' (ni id) (np p)).
Proof.
  intro G. unfold pcm_remove_last_id. cbn [nm_pcm p_lcs]. rewrite lc_find_r.
  destruct (lc_find id (p_lcs p)) as [m|] eqn:X; cbn [option_map]; [|split; auto].
  pose proof (holds_lc_find _ G X) as A. cbn [nm_meas me_adj me_factors].
  destruct (m_rows (me_adj m) <=? 0); [split; auto|]. rewrite <- map_rev.
  destruct (rev (me_factors m)) as [|l fs]; cbn [map]; [reflexivity|].
  rewrite removelast_map_r, map_length. set (gs := removelast (me_factors m)).
  assert (GS : forall b, In b gs -> lc_item id b) by (intros b Hb; apply A; left; apply removelast_In_r, Hb).
  eapply rel_res_bind with (ga := holds (lc_item id)) (ra := ne).
  - destruct (length gs <? 2); [split; [reflexivity|intros b [Hb|Hb]; auto]|].
    destruct (m_cols (me_adj m) =? m_rows (me_adj m)); [|reflexivity].
    replace (shrink_mat P' (me_adj m)) with (shrink_mat P (me_adj m)) by (unfold shrink_mat; rewrite (fo_freed HW); reflexivity).
    apply (heu_inliers_r (Q := lc_item id) (m := Meas gs [] (shrink_mat P (me_adj m)))).
    intros b [Hb|[]]; auto.
  - intros m' Hm. fold (np p). rewrite lc_set_r. split; [reflexivity|]. apply good_lc_set; auto.
Qed.
Lemma removelast_map_i (l : list obsid) : removelast (map ni l) = map ni (removelast l).
Proof. induction l as [|x l IH]; auto. destruct l as [|y l]; auto. cbn [map removelast] in *. rewrite IH. reflexivity. Qed.
Lemma remove_last_r p : good p ->
  rel_res (fun x => good (fst x)) n_rem (pcm_remove_last P p) (pcm_remove_last P' (np p)).
Proof.
  intro G. unfold pcm_remove_last. cbn [nm_pcm p_order]. rewrite <- map_rev. destruct (rev (p_order p)) as [|id l]; cbn [map]; [split; auto|].
  rewrite removelast_map_i. apply (remove_id_r id (p := set_order p (removelast (p_order p)))). apply good_order; auto.
Qed.
Lemma ignore_r c p : pcm_ignore (r c) (np p) = np (pcm_ignore c p).
Proof.
  unfold pcm_ignore. cbn [nm_pcm p_ignored]. rewrite existsb_r. destruct (existsb (N.eqb c) (p_ignored p)); auto.
  unfold nm_pcm, set_ignored. cbn [p_odom p_special p_lcs p_trajs p_lms p_order p_total p_good p_ignored p_robots]. rewrite map_app. reflexivity.
Qed.
Lemma revive_r c p : pcm_revive (r c) (np p) = np (pcm_revive c p).
Proof.
  unfold pcm_revive, nm_pcm, set_ignored. cbn [p_odom p_special p_lcs p_trajs p_lms p_order p_total p_good p_ignored p_robots]. f_equal.
  induction (p_ignored p) as [|x l IH]; cbn [map filter]; auto. rewrite r_eqb, IH. destruct (x =? c)%N; auto.
Qed.
Lemma ignore_good c p : good p -> good (pcm_ignore c p).
Proof. intro G. unfold pcm_ignore. destruct (existsb _ _); auto. apply good_ignored; auto. Qed.
Lemma priors_r c p : E c -> good p -> pcm_remove_priors (r c) (np p) = np (pcm_remove_priors c p) /\ good (pcm_remove_priors c p).
Proof.
  intros Hc G. split.
  - unfold pcm_remove_priors, nm_pcm, set_special. cbn [p_odom p_special p_lcs p_trajs p_lms p_order p_total p_good p_ignored p_robots]. f_equal.
    pose proof (gd_special G) as S0. induction (p_special p) as [|x l IH]; cbn [map filter]; auto.
    rewrite IH by (intros y Hy; apply S0; right; auto). assert (Dx : D x) by (apply S0; left; auto).
    destruct x as [b|k q|k tg|ks tg]; cbn [nm_factor map]; auto.
    rewrite (Hchr k Dx) by (left; auto). rewrite plain_r by auto. destruct (negb (same_char (chr k) c)); auto.
  - apply good_special; auto. intros x Hx. apply filter_In in Hx. exact (gd_special G _ (proj1 Hx)).
Qed.

(** ** The solver *)
Notation ns := (@nm_solver O f r).
Definition good_sol (s : solver) : Prop := (forall p, s_pcm s = Some p -> good p) /\ good_graph (s_nfg s).
Notation rel_s := (rel_out good_sol ns).
Lemma update_values_r (rs : values) : forall st,
  rel_out (fun _ => True) (fun x : values * values => @pair values values (nm (fst x)) (nm (snd x))) nu_tt (update_values rs st)
    (update_values (nm rs) (@pair values values (nm (fst st)) (nm (snd st)))).
Proof.
  induction rs as [|[k v] rs IH]; intros [v1 v2]; cbn [nm_map map update_values fst snd]; [split; auto|].
  fold (nm v1). fold (nm v2). fold (nm rs). rewrite !kfind_r. destruct (kfind k v1) as [w1|].
  - destruct (same_type w1 v); [|split; auto]. rewrite kset_r. apply (IH (kset k v v1, v2)).
  - destruct (kfind k v2) as [w2|]; [|apply (IH (v1, v2))].
    destruct (same_type w2 v); [|split; auto]. rewrite kset_r. apply (IH (v1, kset k v v2)).
Qed.
Lemma nm_graph_app g h : ng (g ++ h) = ng g ++ ng h.
Proof. apply map_app. Qed.
Lemma nm_graph_length g : length (ng g) = length g.
Proof. apply map_length. Qed.
Lemma answer_values_r (a a' : answer O) (vs : values) : (forall k, an_pose a' (f k) = an_pose a k) -> (forall k, an_other a' (f k) = an_other a k) ->
  answer_values a' (nm vs) = nm (answer_values a vs).
Proof.
  intros A B. unfold answer_values, kmapi, nm_map. rewrite !map_map. apply map_ext. intros [k v]. cbn [fst snd]. f_equal.
  destruct v; cbn [answer_value]; f_equal; auto.
Qed.
Lemma call_opt_r q s : good_sol s ->
  match call_opt W q s, call_opt W' (nm_request f q) (ns s) with
  | Ok s1 a, Ok s1' a' => s1' = ns s1 /\ good_sol s1 /\ s1 = add_trace s q /\ (forall k, an_pose a' (f k) = an_pose a k) /\
      (forall k, an_other a' (f k) = an_other a k) /\ (forall i, an_w a' i = an_w a i)
  | Throw s1 e, Throw s1' e' => s1' = ns s1 /\ e' = nm_exn f e /\ good_sol s1
  | Undef u, Undef u' => u = u'
  | _, _ => False
  end.
Proof.
  intros G. unfold call_opt. cbn [nm_solver s_trace]. pose proof (fo_opt HW (s_trace s) q) as X.
  assert (Z : add_trace (ns s) (nm_request f q) = ns (add_trace s q)).
  { unfold add_trace, nm_solver. cbn [s_pcm s_nfg s_vals s_tnfg s_tvals s_w s_tw s_ninl s_latest s_trace]. rewrite map_app. reflexivity. }
  destruct (so_opt W (s_trace s) q) as [a|]; destruct (so_opt W' (map (nm_request f) (s_trace s)) (nm_request f q)) as [a'|]; auto.
Qed.
Lemma finish_r rs s : good_sol s -> rel_s nu_tt (finish rs s) (finish (nm rs) (ns s)).
Proof.
  intro G. unfold finish. cbn [nm_solver s_vals s_tvals]. pose proof (update_values_r rs (s_vals s, s_tvals s)) as U. cbn [fst snd] in U.
  destruct (update_values rs (s_vals s, s_tvals s)) as [[v tv] []|[v tv] e|u]; cbn [rel_out fst snd] in U.
  - destruct U as [-> _]. cbn [s_pcm]. destruct (s_pcm s) as [p|] eqn:X; cbn [option_map].
    + split; [unfold nm_solver, set_latest, set_temp, set_vals, set_pnv; cbn [s_pcm s_nfg s_vals s_tnfg s_tvals s_w s_tw s_ninl s_latest s_trace]; rewrite X; reflexivity|].
      destruct G as [G1 G2]. split; auto.
    + split; [unfold nm_solver, set_latest, set_temp, set_vals, set_pnv; cbn [s_pcm s_nfg s_vals s_tnfg s_tvals s_w s_tw s_ninl s_latest s_trace]; rewrite X; reflexivity|].
      destruct G as [G1 G2]. split; auto.
  - destruct U as [-> _]. split; [reflexivity|exact G].
  - rewrite U. reflexivity.
Qed.
Lemma num_odom_special_r p : num_odom_special (np p) = num_odom_special p.
Proof. unfold num_odom_special. cbn [nm_pcm p_odom p_special]. rewrite !map_length. reflexivity. Qed.
Lemma fixed_lcs_r s k ws : good_sol s -> forall i, rel_s ng (fixed_lcs s k ws i) (fixed_lcs (ns s) k ws i).
Proof.
  intro G. induction ws as [|w ws IH]; intro i; cbn [fixed_lcs]; [split; auto|].
  eapply rel_out_bind with (ra := ng).
  - destruct (negb (Qle_bool w (1 # 2))); [|split; auto]. cbn [nm_solver s_nfg].
    assert (X : nth_error (ng (s_nfg s)) (k + i) = option_map (option_map nf) (nth_error (s_nfg s) (k + i))) by apply nth_error_map. rewrite X.
    destruct (nth_error (s_nfg s) (k + i)) as [x|]; cbn [option_map]; split; auto.
  - intros s1 x G1. eapply rel_out_bind; [apply IH|]. intros s2 y G2. split; auto. rewrite nm_graph_app. reflexivity.
Qed.
Lemma fixed_graph_r s : good_sol s -> rel_s ng (fixed_graph s) (fixed_graph (ns s)).
Proof.
  intro G. unfold fixed_graph. cbn [nm_solver s_pcm s_nfg s_w s_latest s_tnfg]. destruct (s_pcm s) as [p|] eqn:X; cbn [option_map]; [|reflexivity].
  rewrite num_odom_special_r, nm_graph_length. destruct (length (s_nfg s) <? num_odom_special p); [reflexivity|].
  destruct (length (s_w s) <? s_latest s); [reflexivity|]. eapply rel_out_bind.
  - match goal with |- rel_out _ _ _ _ (fixed_lcs ?t _ _ _) => replace t with (ns s) by (unfold nm_solver; rewrite X; reflexivity) end.
    apply fixed_lcs_r; auto.
  - intros s1 y G1. split; auto. f_equal; try (unfold nm_solver; rewrite X; reflexivity).
    all: try (rewrite !nm_graph_app; f_equal; unfold nm_graph; rewrite firstn_map; reflexivity).
Qed.
Lemma gnc_branch_r s : gnc_branch C' (ns s) = option_map np (gnc_branch C s).
Proof.
  unfold gnc_branch. cbn [nm_solver s_pcm s_latest nm_config c_gnc c_fix]. destruct (s_pcm s) as [p|]; cbn [option_map]; auto.
  cbn [nm_pcm p_total]. destruct (c_gnc C && negb (c_fix C && (p_total p =? s_latest s))); auto.
Qed.
Lemma good_weights s w tw n : good_sol s -> good_sol (set_weights s w tw n).
Proof. exact (fun H => H). Qed.
Lemma optimize_r s : good_sol s -> rel_s nu_tt (optimize C W s) (optimize C' W' (ns s)).
Proof.
  intro G. unfold optimize. cbn [nm_solver s_tvals s_vals]. pose proof (vinsert_all_r (s_tvals s) (s_vals s)) as V.
  destruct (vinsert_all (s_tvals s) (s_vals s)) as [fv []|fv e|u]; cbn [rel_out] in V.
  2:{ destruct V as [-> _]. split; auto. }
  2:{ rewrite V. reflexivity. }
  destruct V as [-> _]. fold (ns s). rewrite gnc_branch_r.
  change (s_nfg (ns s)) with (ng (s_nfg s)). change (s_tnfg (ns s)) with (ng (s_tnfg s)). rewrite <- nm_graph_app, !nm_graph_length.
  change (s_w (ns s)) with (s_w s). change (s_latest (ns s)) with (s_latest s). change (s_pcm (ns s)) with (option_map np (s_pcm s)).
  cbn [nm_config c_bias c_fix c_debug c_gn].
  destruct (gnc_branch C s) as [p|]; cbn [option_map].
  - rewrite num_odom_special_r. destruct (c_bias C && (length (s_nfg s ++ s_tnfg s) <? num_odom_special p)); [reflexivity|].
    match goal with |- rel_out _ _ _ (obind (call_opt W ?q s) _) _ => pose proof (call_opt_r q G) as K; set (q0 := q) in * end.
    match goal with |- rel_out _ _ _ _ (obind (call_opt W' ?q _) _) => change q with (nm_request f q0) end.
    destruct (call_opt W q0 s) as [s1 a|s1 e|u]; destruct (call_opt W' (nm_request f q0) (ns s)) as [s1' a'|s1' e'|u']; try (destruct K; fail).
    + destruct K as (-> & G1 & _ & A1 & A2 & A3). cbn [obind].
      assert (M : map (an_w a') (seq 0 (length (s_nfg s ++ s_tnfg s))) = map (an_w a) (seq 0 (length (s_nfg s ++ s_tnfg s)))) by (apply map_ext; auto).
      rewrite M, (answer_values_r a a' _ A1 A2).
      match goal with |- rel_out _ _ _ (finish _ ?t) _ => apply (finish_r (answer_values a fv) (s := t)) end. exact G1.
    + destruct K as (-> & -> & G1). split; auto.
    + subst u'. reflexivity.
  - eapply rel_out_bind with (ra := ng); [destruct (c_fix C); [apply fixed_graph_r; auto|split; auto]|].
    intros s0 g _.
    match goal with |- rel_out _ _ _ (obind (call_opt W ?q s) _) _ => pose proof (call_opt_r q G) as K; set (q0 := q) in * end.
    match goal with |- rel_out _ _ _ _ (obind (call_opt W' ?q _) _) => change q with (nm_request f q0) end.
    destruct (call_opt W q0 s) as [s1 a|s1 e|u]; destruct (call_opt W' (nm_request f q0) (ns s)) as [s1' a'|s1' e'|u']; try (destruct K; fail).
    + destruct K as (-> & G1 & _ & A1 & A2 & A3). cbn [obind].
      destruct (length (s_w s) <? s_latest s); [reflexivity|]. destruct (length (s_nfg s) <? s_latest s); [reflexivity|].
      rewrite (answer_values_r a a' _ A1 A2).
      destruct (s_pcm s) as [p|]; cbn [option_map]; [|destruct (c_debug C && negb (c_gn C)); [reflexivity|]];
        match goal with |- rel_out _ _ _ (finish _ ?t) _ => apply (finish_r (answer_values a fv) (s := t)) end; exact G1.
    + destruct K as (-> & -> & G1). split; auto.
    + subst u'. reflexivity.
Qed.

Lemma good_app g h : good_graph g -> good_graph h -> good_graph (g ++ h).
Proof. intros A B x Hx. apply in_app_or in Hx. destruct Hx; auto. Qed.
Lemma f_keys_r x : f_keys (nf x) = map f (f_keys x).
Proof. destruct x; reflexivity. Qed.
Lemma good_set_nfg s g : good_sol s -> good_graph g -> good_sol (set_nfg s g).
Proof. intros [A B] H. split; auto. Qed.
Lemma add_and_check_r fs vs s : good_sol s -> good_graph fs -> rel_s n_bool (add_and_check fs vs s) (add_and_check (ng fs) (nm vs) (ns s)).
Proof.
  intros G H. unfold add_and_check.
  assert (Z : set_nfg (ns s) (s_nfg (ns s) ++ ng fs) = ns (set_nfg s (s_nfg s ++ fs))).
  { unfold nm_solver, set_nfg, set_pnv. cbn [s_pcm s_nfg s_vals s_tnfg s_tvals s_w s_tw s_ninl s_latest s_trace]. rewrite nm_graph_app. reflexivity. }
  rewrite Z. clear Z. assert (G1 : good_sol (set_nfg s (s_nfg s ++ fs))) by (apply good_set_nfg; auto; apply good_app; auto; apply G).
  set (s1 := set_nfg s (s_nfg s ++ fs)) in *. change (s_vals (ns s1)) with (nm (s_vals s1)).
  pose proof (vinsert_all_r vs (s_vals s1)) as V. destruct (vinsert_all vs (s_vals s1)) as [v []|v e|u]; cbn [rel_out] in V.
  - destruct V as [-> _]. assert (L : length (nm vs) = length vs) by apply map_length. rewrite L.
    destruct fs as [|[x|] [|y fs]]; cbn [nm_graph map option_map]; try reflexivity; try (split; auto; fail).
    rewrite f_keys_r, map_length. split; auto.
  - destruct V as [-> _]. split; auto.
  - rewrite V. reflexivity.
Qed.
Lemma run_pcm_r fs vs p s : good_sol s -> good p -> good_graph fs -> rel_s n_bool (run_pcm C W fs vs p s) (run_pcm C' W' (ng fs) (nm vs) (np p) (ns s)).
Proof.
  intros G Gp H. unfold run_pcm.
  pose proof (remove_outliers_r vs (st := PSt p (s_nfg s) (s_vals s)) (conj Gp (proj2 G)) H) as R.
  change (PSt (np p) (s_nfg (ns s)) (s_vals (ns s))) with (n_pst (PSt p (s_nfg s) (s_vals s))).
  destruct (remove_outliers C P fs vs (PSt p (s_nfg s) (s_vals s))) as [st b|st e|u]; cbn [rel_out] in R.
  - destruct R as [-> [G1 G2]]. split; [reflexivity|]. split; auto. cbn [set_pnv s_pcm]. intros q Hq. injection Hq as <-. auto.
  - destruct R as [-> [G1 G2]]. split; [reflexivity|]. split; auto. cbn [set_pnv s_pcm]. intros q Hq. injection Hq as <-. auto.
  - rewrite R. reflexivity.
Qed.
Lemma ingest_r fs vs s : good_sol s -> good_graph fs -> rel_s n_bool (ingest C W fs vs s) (ingest C' W' (ng fs) (nm vs) (ns s)).
Proof.
  intros G H. unfold ingest. change (s_pcm (ns s)) with (option_map np (s_pcm s)). destruct (s_pcm s) as [p|] eqn:X; cbn [option_map].
  - apply run_pcm_r; auto. apply (proj1 G); auto.
  - apply add_and_check_r; auto.
Qed.
Lemma g2o_throws_r g : g2o_throws (ng g) = g2o_throws g.
Proof.
  unfold g2o_throws, nm_graph. induction g as [|[[b|k q|k tg|ks tg]|] g IH]; cbn [map existsb option_map nm_factor]; auto.
  rewrite IH. reflexivity.
Qed.
Lemma log_status_r s : good_sol s -> rel_s nu_tt (log_status C s) (log_status C' (ns s)).
Proof.
  intro G. unfold log_status. cbn [nm_config c_log]. destruct (c_log C); [|split; auto].
  change (s_pcm (ns s)) with (option_map np (s_pcm s)). destruct (s_pcm s) as [p|]; cbn [option_map]; [|reflexivity].
  change (s_nfg (ns s)) with (ng (s_nfg s)). rewrite g2o_throws_r. destruct (g2o_throws (s_nfg s)); split; auto.
Qed.
Lemma update_r fs vs opt s : good_sol s -> good_graph fs -> rel_s nu_tt (update C W fs vs opt s) (update C' W' (ng fs) (nm vs) opt (ns s)).
Proof.
  intros G H. unfold update. eapply rel_out_bind; [apply ingest_r; auto|]. intros s1 b G1. unfold n_bool.
  eapply rel_out_bind with (ra := nu_tt); [destruct (b && opt); [apply optimize_r; auto|split; auto]|]. intros s2 [] G2.
  destruct opt; [apply log_status_r; auto|split; auto].
Qed.
Lemma force_update_r fs vs s : good_sol s -> good_graph fs -> rel_s nu_tt (force_update C W fs vs s) (force_update C' W' (ng fs) (nm vs) (ns s)).
Proof.
  intros G H. unfold force_update. eapply rel_out_bind; [apply ingest_r; auto|]. intros s1 b G1.
  eapply rel_out_bind with (ra := nu_tt); [apply optimize_r; auto|]. intros s2 [] G2. apply log_status_r; auto.
Qed.
Lemma ns_pnv s p n v : set_pnv (ns s) (option_map np p) (ng n) (nm v) = ns (set_pnv s p n v).
Proof. reflexivity. Qed.
Lemma good_pnv s p v : good p -> good_sol (set_pnv s (Some p) (graph_of P p) v).
Proof. intro G. split; [|apply graph_of_good; auto]. cbn [set_pnv s_pcm]. intros q Hq. injection Hq as <-. auto. Qed.
Lemma keep_prior_r c g : E c -> good_graph g -> filter (keep_prior (r c)) (ng g) = ng (filter (keep_prior c) g).
Proof.
  intros Hc. induction g as [|of g IH]; intro H; cbn [nm_graph map filter]; auto. fold (ng g).
  rewrite IH by (intros x Hx; apply H; right; auto).
  assert (Z : keep_prior (r c) (option_map nf of) = keep_prior c of).
  { destruct of as [[b|k q|k tg|ks tg]|]; auto; cbn [option_map nm_factor keep_prior];
      rewrite (Hchr k (H _ (or_introl eq_refl))) by (left; auto); rewrite plain_r by auto; reflexivity. }
  rewrite Z. destruct (keep_prior c of); auto.
Qed.
Lemma remove_priors_r c opt s : E c -> good_sol s -> rel_s nu_tt (remove_priors C W c opt s) (remove_priors C' W' (r c) opt (ns s)).
Proof.
  intros Hc G. unfold remove_priors. change (s_pcm (ns s)) with (option_map np (s_pcm s)).
  change (s_nfg (ns s)) with (ng (s_nfg s)). change (s_vals (ns s)) with (nm (s_vals s)).
  destruct (s_pcm s) as [p|] eqn:X; cbn [option_map].
  - destruct (priors_r Hc (proj1 G p X)) as [-> G']. rewrite graph_of_r.
    match goal with |- context [set_pnv (ns s) ?a ?b ?d] =>
      change (set_pnv (ns s) a b d) with (ns (set_pnv s (Some (pcm_remove_priors c p)) (graph_of P (pcm_remove_priors c p)) (s_vals s))) end.
    destruct opt; [apply optimize_r|split; auto]; apply good_pnv; auto.
  - rewrite (keep_prior_r Hc (proj2 G)).
    assert (Z : set_nfg (ns s) (ng (filter (keep_prior c) (s_nfg s))) = ns (set_nfg s (filter (keep_prior c) (s_nfg s)))) by reflexivity.
    rewrite Z. assert (G1 : good_sol (set_nfg s (filter (keep_prior c) (s_nfg s)))).
    { apply good_set_nfg; auto. intros x Hx. apply filter_In in Hx. apply (proj2 G), Hx. }
    destruct opt; [apply optimize_r; auto|split; auto].
Qed.
Definition n_edge (e : option (key * key)) := option_map (nm_edge f) e.
Lemma last_map_r (ks : list key) k : last (map f ks) (f k) = f (last ks k).
Proof. induction ks as [|x ks IH]; auto. destruct ks; auto. Qed.
Lemma removelast_map_g (l : graph_t) : removelast (ng l) = ng (removelast l).
Proof. unfold nm_graph. induction l as [|x l IH]; auto. destruct l as [|y l]; auto. cbn [map removelast] in *. rewrite IH. reflexivity. Qed.
Lemma remove_last_factor_r s : good_sol s -> rel_s n_edge (remove_last_factor s) (remove_last_factor (ns s)).
Proof.
  intro G. unfold remove_last_factor. change (s_nfg (ns s)) with (ng (s_nfg s)).
  assert (Z : rev (ng (s_nfg s)) = map (option_map nf) (rev (s_nfg s))) by (symmetry; apply map_rev).
  rewrite Z. destruct (rev (s_nfg s)) as [|[x|] l]; cbn [map option_map]; try reflexivity. rewrite f_keys_r.
  destruct (f_keys x) as [|k ks]; cbn [map]; [reflexivity|]. rewrite last_map_r, removelast_map_g. split; [reflexivity|].
  apply good_set_nfg; auto. intros y Hy. apply (proj2 G). eapply removelast_In_r; eauto.
Qed.
Lemma lift_removal_r s x x' : good_sol s -> rel_res (fun x => good (fst x)) n_rem x x' -> rel_s n_edge (lift_removal W s x) (lift_removal W' (ns s) x').
Proof.
  intros G H. destruct x as [[p [e|]]|u]; cbn [rel_res fst] in H.
  - destruct H as [-> G1]. unfold n_rem. cbn [fst snd option_map lift_removal]. rewrite graph_of_r. split; [reflexivity|]. apply good_pnv; auto.
  - destruct H as [-> G1]. unfold n_rem. cbn [fst snd option_map lift_removal]. split; [reflexivity|].
    split; [|apply G]. cbn [set_pnv s_pcm]. intros q Hq. injection Hq as <-. auto.
  - rewrite H. reflexivity.
Qed.
Lemma remove_last_id_r a b s : good_sol s -> rel_s n_edge (remove_last_id C W a b s) (remove_last_id C' W' (r a) (r b) (ns s)).
Proof.
  intro G. unfold remove_last_id. eapply rel_out_bind with (ra := n_edge).
  - change (s_pcm (ns s)) with (option_map np (s_pcm s)). destruct (s_pcm s) as [p|] eqn:X; cbn [option_map]; [|apply remove_last_factor_r; auto].
    apply lift_removal_r; auto. apply (remove_id_r (a, b)). apply (proj1 G); auto.
  - intros s1 e G1. eapply rel_out_bind; [apply optimize_r; auto|]. intros s2 [] G2. split; auto.
Qed.
Lemma solver_remove_last_r s : good_sol s -> rel_s n_edge (remove_last C W s) (remove_last C' W' (ns s)).
Proof.
  intro G. unfold remove_last. eapply rel_out_bind with (ra := n_edge).
  - change (s_pcm (ns s)) with (option_map np (s_pcm s)). destruct (s_pcm s) as [p|] eqn:X; cbn [option_map]; [|apply remove_last_factor_r; auto].
    apply lift_removal_r; auto. apply remove_last_r. apply (proj1 G); auto.
  - intros s1 e G1. eapply rel_out_bind; [apply optimize_r; auto|]. intros s2 [] G2. split; auto.
Qed.
Lemma with_pcm_r (h h' : pcm -> pcm) s : good_sol s -> (forall p, h' (np p) = np (h p)) -> (forall p, good p -> good (h p)) ->
  with_pcm W' h' (ns s) = ns (with_pcm W h s) /\ good_sol (with_pcm W h s).
Proof.
  intros G H1 H2. unfold with_pcm. change (s_pcm (ns s)) with (option_map np (s_pcm s)). destruct (s_pcm s) as [p|] eqn:X; cbn [option_map]; [|auto].
  rewrite H1, graph_of_r. split; [reflexivity|]. apply good_pnv, H2, (proj1 G); auto.
Qed.
Lemma temp_update_r fs vs s : good_sol s -> rel_s nu_tt (temp_update fs vs s) (temp_update (ng fs) (nm vs) (ns s)).
Proof.
  intro G. unfold temp_update. change (s_tvals (ns s)) with (nm (s_tvals s)). change (s_tnfg (ns s)) with (ng (s_tnfg s)).
  pose proof (vinsert_all_r vs (s_tvals s)) as V. rewrite <- nm_graph_app.
  destruct (vinsert_all vs (s_tvals s)) as [v []|v e|u]; cbn [rel_out] in V; [destruct V as [-> _]; split; auto..|rewrite V; reflexivity].
Qed.

(** ** Calls and histories *)
Definition good_op (o : op) : Prop :=
  (forall fs vs, call_of o = Some (fs, vs) -> good_graph fs) /\ (forall c opt, o = OpRemovePriors c opt -> E c).
Notation nr := (nm_ret f).
Notation no := (@nm_op O f r).
Lemma no_ret_r x x' : rel_s nu_tt x x' -> rel_s nr (no_ret x) (no_ret x').
Proof. intro H. unfold no_ret. eapply rel_out_bind; [exact H|]. intros s [] G. split; auto. Qed.
Lemma edge_ret_r x x' : rel_s n_edge x x' -> rel_s nr (edge_ret x) (edge_ret x').
Proof. intro H. unfold edge_ret. eapply rel_out_bind; [exact H|]. intros s e G. split; auto. Qed.
Lemma step_r o s : good_sol s -> good_op o -> rel_s nr (step C W o s) (step C' W' (no o) (ns s)).
Proof.
  intros G [H1 H2]. destruct o as [fs vs opt|fs vs|c opt|a b| |c|c|fs vs|fs vs|]; cbn [nm_op step].
  - apply no_ret_r, update_r; eauto. eapply H1; reflexivity.
  - apply no_ret_r, force_update_r; eauto. eapply H1; reflexivity.
  - apply no_ret_r, remove_priors_r; eauto.
  - apply edge_ret_r, remove_last_id_r; auto.
  - apply edge_ret_r, solver_remove_last_r; auto.
  - apply no_ret_r. unfold ignore_prefix. destruct (with_pcm_r (pcm_ignore c) (pcm_ignore (r c)) G (ignore_r c)) as [-> G1]; [|apply optimize_r; auto].
    intros p. apply ignore_good.
  - apply no_ret_r. unfold revive_prefix. destruct (with_pcm_r (pcm_revive c) (pcm_revive (r c)) G (revive_r c)) as [-> G1]; [|apply optimize_r; auto].
    intros p Gp. apply good_ignored; auto.
  - apply no_ret_r, temp_update_r; auto.
  - apply no_ret_r. split; [reflexivity|exact G].
  - apply no_ret_r. split; [reflexivity|exact G].
Qed.
Lemma run_r h : forall s, good_sol s -> (forall o, In o h -> good_op o) -> rel_s (map nr) (run C W h s) (run C' W' (map no h) (ns s)).
Proof.
  induction h as [|o h IH]; intros s G H; cbn [map run]; [split; auto|].
  eapply rel_out_bind; [apply step_r; auto; apply H; left; auto|]. intros s1 x G1.
  eapply rel_out_bind; [apply IH; auto; intros; apply H; right; auto|]. intros s2 xs G2. split; auto.
Qed.
Lemma run_on_r h : forall s, good_sol s -> (forall o, In o h -> good_op o) -> rel_res good_sol ns (run_on C W h s) (run_on C' W' (map no h) (ns s)).
Proof.
  induction h as [|o h IH]; intros s G H; cbn [map run_on]; [split; auto|].
  pose proof (step_r G (H o (or_introl eq_refl))) as S0. assert (H' : forall o, In o h -> good_op o) by (intros; apply H; right; auto).
  destruct (step C W o s) as [s1 x|s1 e|u]; cbn [rel_out] in S0; [destruct S0 as [-> G1]; apply IH; auto..|rewrite S0; reflexivity].
Qed.
Lemma init_good b : good_sol (solver_init b).
Proof.
  split; [|intros x []]. intros p Hp. destruct b; cbn [solver_init s_pcm] in Hp; [|discriminate Hp]. injection Hp as <-.
  constructor; cbn [pcm_init p_special p_odom p_lcs p_lms p_robots]; intros; contradiction.
Qed.
Lemma init_r b : solver_init b = ns (solver_init b).
Proof. destruct b; reflexivity. Qed.
End Rename.

Section Final.
Variable O : tops.
Variable C : config.
Variables (f : key -> key) (r : N -> N).
Variables W W' : soracles O.
Variable h : list (op O).
Hypothesis Hof : keys_unread O.
Hypothesis R : renames f r h.
Hypothesis Z : zero_kept f r (c_special C) h.
Hypothesis HW : follows f r W W'.

Lemma robots_inj a b : r a = r b -> a = b.
Proof. intro H. destruct (rn_robots R) as [g G]. rewrite <- (G a), <- (G b), H. reflexivity. Qed.
Lemma hist_good o : In o h -> good_op (delivered h) (prefix_used h) o.
Proof.
  intro Ho. split.
  - intros fs vs K x Hx. exists o, fs, vs. auto.
  - intros c opt ->. right. eauto.
Qed.
Lemma zero_special : forall b b', delivered h (FBetween b) -> delivered h (FBetween b') -> b_to b = b_to b' -> is_special C (b_to b) = true ->
  chr (b_from b) <> chr (b_from b') -> f (sym (chr (b_from b)) 0) = sym (r (chr (b_from b))) 0.
Proof.
  intros b b' H1 H2 H3 H4 H5. apply (Z H1 H2 H3); auto. unfold is_special in H4. apply existsb_exists in H4. destruct H4 as (c & H4 & H6).
  apply N.eqb_eq in H6. red. rewrite H6. exact H4.
Qed.
Theorem renamed_run b : run (nm_config r C) W' (map (nm_op f r) h) (solver_init b) = nm_outcome f r (map (nm_ret f)) (run C W h (solver_init b)).
Proof.
  assert (X : rel_out f (good_sol C (delivered h) (prefix_used h)) (nm_solver f r) (map (nm_ret f)) (run C W h (solver_init b))
    (run (nm_config r C) W' (map (nm_op f r) h) (nm_solver f r (solver_init b)))).
  { apply run_r; auto using init_good, hist_good, robots_inj; try apply R.
    - intros x k Dx Hk. apply (rn_chr R). exists x. auto.
    - intros x k Dx Hk. left. exists k. split; auto. exists x. auto.
    - exact zero_special. }
  rewrite <- init_r in X. destruct (run C W h (solver_init b)) as [s a|s e|u]; cbn [nm_outcome]; apply X.
Qed.
Theorem renamed_run_on b : run_on (nm_config r C) W' (map (nm_op f r) h) (solver_init b) =
  match run_on C W h (solver_init b) with Val s => Val (nm_solver f r s) | Bad u => Bad u end.
Proof.
  assert (X : rel_res (good_sol C (delivered h) (prefix_used h)) (nm_solver f r) (run_on C W h (solver_init b))
    (run_on (nm_config r C) W' (map (nm_op f r) h) (nm_solver f r (solver_init b)))).
  { apply run_on_r; auto using init_good, hist_good, robots_inj; try apply R.
    - intros x k Dx Hk. apply (rn_chr R). exists x. auto.
    - intros x k Dx Hk. left. exists k. split; auto. exists x. auto.
    - exact zero_special. }
  rewrite <- init_r in X. destruct (run_on C W h (solver_init b)) as [s|u]; apply X.
Qed.
End Final.

(** ** Surroundings that answer in the new names *)
Section Undo.
Variable O : tops.
Variables (f g : key -> key) (r q : N -> N).
Hypothesis Hg : forall k, g (f k) = k.
Hypothesis Hq : forall c, q (r c) = c.
Lemma undo_map V (m : kmap V) : nm_map g (nm_map f m) = m.
Proof. unfold nm_map. rewrite map_map. cbn [fst snd]. rewrite <- (map_id m) at 2. apply map_ext. intros [k v]. cbn [fst snd]. rewrite Hg. auto. Qed.
Lemma undo_bf (b : bf O) : nm_bf (O := O) g (nm_bf (O := O) f b) = b.
Proof. destruct b as [u v m n]. unfold nm_bf. cbn [b_from b_to b_meas b_noise]. rewrite !Hg. auto. Qed.
Lemma undo_factor (x : factor O) : nm_factor g (nm_factor f x) = x.
Proof.
  destruct x; cbn [nm_factor]; rewrite ?undo_bf, ?Hg; auto. f_equal. rewrite map_map. rewrite <- (map_id ks) at 2. apply map_ext. auto.
Qed.
Lemma undo_graph (x : graph_t O) : nm_graph g (nm_graph f x) = x.
Proof.
  unfold nm_graph. rewrite map_map. rewrite <- (map_id x) at 2. apply map_ext. intros [y|]; cbn [option_map]; auto. rewrite undo_factor. auto.
Qed.
Lemma undo_request (x : request O) : nm_request g (nm_request f x) = x.
Proof. destruct x as [x1 x2 x3 x4]. unfold nm_request. cbn [rq_graph rq_vals rq_known rq_init]. rewrite undo_graph, undo_map. auto. Qed.
Lemma undo_id x : nm_id q (nm_id r x) = x.
Proof. destruct x. unfold nm_id. cbn [fst snd]. rewrite !Hq. auto. Qed.
Lemma undo_list A B (u : A -> B) (v : B -> A) l : (forall x, v (u x) = x) -> map v (map u l) = l.
Proof. intro H. rewrite map_map. rewrite <- (map_id l) at 2. apply map_ext. auto. Qed.
Definition translated (W : soracles O) : soracles O :=
  @SOracles O
    (Oracles O (fun l x => w_lc_order (so_pcm W) (map (nm_id q) l) (nm_id q x)) (fun l x => w_lm_order (so_pcm W) (map g l) (g x))
       (w_avg (so_pcm W)) (w_freed (so_pcm W)))
    (fun l x => option_map (fun a => Ans (fun k => an_pose a (g k)) (fun k => an_other a (g k)) (an_w a))
                  (so_opt W (map (nm_request g) l) (nm_request g x))).
Lemma translated_follows W : follows f r W (translated W).
Proof.
  constructor; cbn [translated so_pcm so_opt w_lc_order w_lm_order w_avg w_freed]; auto.
  - intros l x. rewrite undo_id, undo_list; auto using undo_id.
  - intros l x. rewrite Hg, undo_list; auto.
  - intros l x. rewrite undo_request, undo_list by (apply undo_request). destruct (so_opt W l x) as [a|]; cbn [option_map]; auto.
    cbn [an_pose an_other an_w]. repeat split; intros; rewrite ?Hg; auto.
Qed.
End Undo.
Section Inverse.
Variable f : key -> key.
Hypothesis Hf : forall a b, (a < b)%N -> (f a < f b)%N.
Lemma grows n : (N.of_nat n <= f (N.of_nat n))%N.
Proof.
  induction n as [|n IH]; [lia|]. assert (N.of_nat n < N.of_nat (S n))%N as H by lia. apply Hf in H. lia.
Qed.
Definition back (k : key) : key :=
  match find (fun n => (f (N.of_nat n) =? k)%N) (seq 0 (S (N.to_nat k))) with Some n => N.of_nat n | None => 0%N end.
Lemma back_f k : back (f k) = k.
Proof.
  unfold back. destruct (find _ _) as [n|] eqn:X.
  - apply find_some in X. destruct X as [_ X]. apply N.eqb_eq in X.
    destruct (N.lt_total (N.of_nat n) k) as [L|[L|L]]; auto; apply Hf in L; lia.
  - exfalso. assert (Y := find_none _ _ X (N.to_nat k)). cbv beta in Y. rewrite N2Nat.id, N.eqb_refl in Y.
    pose proof (grows (N.to_nat k)) as G. rewrite N2Nat.id in G. enough (false = true) by discriminate. rewrite <- Y; auto.
    apply in_seq. lia.
Qed.
End Inverse.

(** ** Whatever the surroundings *)
Section Any.
Variable O : tops.
Variable C : config.
Variables (f : key -> key) (r : N -> N).
Variable h : list (op O).
Hypothesis R : renames f r h.
Notation C' := (nm_config r C).
Lemma call_of_r (o : op O) : call_of (nm_op f r o) = match call_of o with Some (fs, vs) => Some (nm_graph f fs, nm_map f vs) | None => None end.
Proof. destruct o; reflexivity. Qed.
Lemma odometry_is nv (b : bf O) D0 : sp_odometry (c_special D0) nv b = match classify D0 nv (FBetween b) with Odometry => true | _ => false end.
Proof.
  rewrite classify_spec. destruct (sp_first (c_special D0) nv b) eqn:X; [apply (first_not_odometry D0); auto|].
  destruct (sp_odometry (c_special D0) nv b); auto.
Qed.
Lemma odometry_r nv b : gives h b -> sp_odometry (map r (c_special C)) (nm_map f nv) (nm_bf (O := O) f b) = sp_odometry (c_special C) nv b.
Proof.
  intro H. change (map r (c_special C)) with (c_special C'). rewrite (odometry_is _ _ C'), (odometry_is _ _ C).
  change (FBetween (nm_bf (O := O) f b)) with (nm_factor f (FBetween b)).
  rewrite (@classify_r O C f r (delivered h)); auto; try apply R; [apply (robots_inj R)|].
  intros x k Dx Hk. apply (rn_chr R). exists x. auto.
Qed.
Lemma betweens_r (fs : graph_t O) : betweens (nm_graph f fs) = map (nm_bf (O := O) f) (betweens fs).
Proof.
  unfold betweens, nm_graph. induction fs as [|[[b|k x|k t|ks t]|] fs IH]; cbn [map flat_map option_map nm_factor app]; auto. f_equal. auto.
Qed.
Lemma odometry_filter_r vs l : (forall b, In b l -> gives h b) ->
  filter (sp_odometry (map r (c_special C)) (nm_map f vs)) (map (nm_bf (O := O) f) l) = map (nm_bf (O := O) f) (filter (sp_odometry (c_special C) vs) l).
Proof.
  induction l as [|b l IH]; intro H; cbn [map filter]; auto. rewrite odometry_r by (apply H; left; auto).
  rewrite IH by (intros; apply H; right; auto). destruct (sp_odometry (c_special C) vs b); auto.
Qed.
Lemma gives_betweens o fs vs b : In o h -> call_of o = Some (fs, vs) -> In b (betweens fs) -> gives h b.
Proof.
  intros Ho K Hb. unfold betweens in Hb. apply in_flat_map in Hb. destruct Hb as ([[b'|k x|k t|ks t]|] & H1 & H2); try destruct H2 as [<-|[]]; try destruct H2.
  exists o, fs, vs. auto.
Qed.
Lemma sp_odoms_r g : incl g h -> sp_odoms (map r (c_special C)) (map (nm_op f r) g) = map (nm_bf (O := O) f) (sp_odoms (c_special C) g).
Proof.
  induction g as [|o g IH]; intro H; cbn [map sp_odoms flat_map]; auto. fold (sp_odoms (c_special C) g). fold (sp_odoms (map r (c_special C)) (map (nm_op f r) g)).
  rewrite map_app, IH by (intros x Hx; apply H; right; auto). f_equal. rewrite call_of_r. destruct (call_of o) as [[fs vs]|] eqn:X; auto.
  rewrite betweens_r, odometry_filter_r; auto. intros b Hb. eapply gives_betweens; eauto. apply H. left; auto.
Qed.
Lemma starts_r : starts_supplied (c_special C) h -> starts_supplied (map r (c_special C)) (map (nm_op f r) h).
Proof.
  intros H h1 o h2 fs vs l1 b l2 X K L N0. symmetry in X.
  destruct (map_eq_app _ _ _ _ (eq_sym X)) as (g1 & g2' & G & G1 & G2). destruct g2' as [|o0 g2]; [discriminate G2|].
  cbn [map] in G2. injection G2 as Eo E2. subst h1 o. rewrite call_of_r in K. destruct (call_of o0) as [[fs0 vs0]|] eqn:K0; [|discriminate K].
  injection K as <- <-. rewrite betweens_r, odometry_filter_r in L.
  2:{ intros x Hx. eapply gives_betweens; eauto. rewrite G. apply in_or_app. right; left; auto. }
  destruct (map_eq_app _ _ _ _ L) as (m1 & m2' & M & M1 & M2). destruct m2' as [|b0 m2]; [discriminate M2|].
  cbn [map] in M2. injection M2 as Eb M2. subst b l1.
  assert (I1 : incl g1 h) by (intros x Hx; rewrite G; apply in_or_app; auto).
  assert (B0 : gives h b0).
  { assert (Z : In b0 (filter (sp_odometry (c_special C) vs0) (betweens fs0))) by (rewrite M; apply in_or_app; right; left; auto).
    apply filter_In in Z. eapply gives_betweens; [|exact K0|apply Z]. rewrite G. apply in_or_app. right; left; auto. }
  cbn [nm_bf b_from]. unfold nm_map. rewrite map_map. cbn [fst].
  assert (Y : In (b_from b0) (map fst vs0)).
  { apply (H g1 o0 g2 fs0 vs0 m1 b0 m2 G K0 M). intros b' Hb' Ec. rewrite (sp_odoms_r I1), <- map_app in N0.
    apply (N0 (nm_bf (O := O) f b')); [apply in_map; auto|]. cbn [nm_bf b_to].
    assert (B' : gives h b').
    { apply in_app_or in Hb'. destruct Hb' as [Hb'|Hb'].
      - unfold sp_odoms in Hb'. apply in_flat_map in Hb'. destruct Hb' as (o & Ho & Hb'). destruct (call_of o) as [[fs vs]|] eqn:Ko; [|destruct Hb'].
        apply filter_In in Hb'. eapply gives_betweens; [apply I1, Ho|exact Ko|apply Hb'].
      - assert (Z : In b' (filter (sp_odometry (c_special C) vs0) (betweens fs0))) by (rewrite M; apply in_or_app; auto).
        apply filter_In in Z. eapply gives_betweens; [|exact K0|apply Z]. rewrite G. apply in_or_app. right; left; auto. }
    rewrite (rn_chr R), (rn_chr R), Ec; auto.
    - exists (FBetween b0). split; [exact B0|right; left; auto].
    - exists (FBetween b'). split; [exact B'|right; left; auto]. }
  apply in_map_iff in Y. destruct Y as (y & Y1 & Y2). apply in_map_iff. exists y. split; auto. exact (f_equal f Y1).
Qed.
Lemma reported_r rs : reported (map (nm_ret f) rs) = map (option_map (nm_edge f)) (reported rs).
Proof. unfold reported. induction rs as [|[e|] rs IH]; cbn [map flat_map nm_ret option_map app]; auto. rewrite IH. auto. Qed.
Theorem renamed_any (W W2 : soracles O) s rs s2 rs2 : keys_unread O -> zero_kept f r (c_special C) h -> starts_supplied (c_special C) h ->
  w_freed (so_pcm W) = w_freed (so_pcm W2) ->
  run C W h (solver_init true) = Ok s rs -> run C' W2 (map (nm_op f r) h) (solver_init true) = Ok s2 rs2 ->
  s_pcm s2 = option_map (nm_pcm f r) (s_pcm s) /\ Permutation (s_nfg s2) (nm_graph f (s_nfg s)) /\
  map fst (s_vals s2) = map f (map fst (s_vals s)) /\ reported rs2 = map (option_map (nm_edge f)) (reported rs).
Proof.
  intros Hof Z ST FR H1 H2. destruct (rn_robots R) as [q Q]. pose proof (back_f f (rn_keys R)) as B.
  pose proof (translated_follows f (back f) r q B Q W) as FO. set (W' := translated (back f) q W) in *.
  pose proof (@renamed_run O C f r W W' h Hof R Z FO true) as X. rewrite H1 in X. cbn [nm_outcome] in X.
  destruct (@calls_decide_order O C' W2 W' (map (nm_op f r) h) (map (nm_op f r) h) s2 (nm_solver f r s) rs2 (map (nm_ret f) rs)) as (A1 & A2 & A3 & A4); auto.
  { reflexivity. } { apply starts_r; auto. }
  cbn [nm_solver s_pcm s_nfg s_vals] in *. split; auto. split; auto. split; [|rewrite A4; apply reported_r].
  rewrite A3. unfold nm_map. rewrite !map_map. reflexivity.
Qed.
End Any.
Lemma node_unread G pp : keys_unread (node_ops G pp).
Proof. intros b b' H1 H2. cbn [node_ops t_of]. unfold pn_of. cbn [node_ops t_pose t_cov] in *. rewrite H1, H2. reflexivity. Qed.
Lemma cov_unread G pp : keys_unread (cov_ops G pp).
Proof. intros b b' H1 H2. cbn [cov_ops t_of]. unfold pc_of. cbn [cov_ops t_pose t_cov] in *. rewrite H1, H2. reflexivity. Qed.
