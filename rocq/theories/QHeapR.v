(** Every operation on the linked lists of QHeap has the meaning that QSpec gives it on plain lists, and is a sequence of the steps [prim]. *)
From Coq Require Import QArith Lqa List Bool Arith ZArith Lia.
From Verif Require Import Base QHeap QSpec QHeapP.
Import ListNotations.
Open Scope Q_scope.
Open Scope h_scope.

Definition ent (h : heap) (m : nat) : entry := (comp_of h m, m_prio (mm h m)).
Definition ents (h : heap) (l : list nat) : list entry := map (ent h) l.
(** the queues as plain lists: read from head to tail *)
Definition abs (h : heap) : plain :=
  mkP (nq h) (fun q => u_cap (qq h q)) (fun q => match members q h with Rok l => ents h l | Rer _ => [] end).

Lemma abs_l : forall h f q, Inv h f -> (q < nq h)%nat -> p_l (abs h) q = ents h (f q).
Proof. intros h f q I L. cbn. rewrite (members_ok h f q I L). reflexivity. Qed.
Lemma ents_ext : forall h h' l, (forall m, In m l -> m_comp (mm h' m) = m_comp (mm h m) /\ m_prio (mm h' m) = m_prio (mm h m)) -> ents h' l = ents h l.
Proof.
  intros h h' l E. apply map_ext_in. intros m I. unfold ent, comp_of. destruct (E m I) as [-> ->]. reflexivity.
Qed.
Lemma is_in_iff : forall c L, is_in c L = true <-> In c (names L).
Proof. intros. apply memb_iff. Qed.
Lemma is_in_false : forall c L, is_in c L = false <-> ~ In c (names L).
Proof. intros. apply memb_false_iff. Qed.
Lemma names_ents : forall h l, names (ents h l) = map (comp_of h) l.
Proof. intros. unfold names, ents. rewrite map_map. reflexivity. Qed.
Lemma in_view : forall h f q c, Inv h f -> (q < nq h)%nat -> is_in c (ents h (f q)) = match member c q h with Some _ => true | None => false end.
Proof.
  intros h f q c I L. destruct (member c q h) as [m|] eqn:E.
  - apply is_in_iff. rewrite names_ents. apply (iv_mb _ _ I) in E. destruct E as (_ & A & B). apply in_map_iff. exists m. split; auto. unfold comp_of. now rewrite B.
  - apply is_in_false. rewrite names_ents, in_map_iff. intros (m & A & B). destruct (iv_comp _ _ I q m L B) as [c' C].
    unfold comp_of in A. rewrite C in A. subst c'. pose proof (proj2 (iv_mb _ _ I c q m) (conj L (conj B C))). congruence.
Qed.
Lemma nodup_view : forall h f q, Inv h f -> NoDup (names (ents h (f q))).
Proof.
  intros h f q I. rewrite names_ents. destruct (le_lt_dec (nq h) q) as [L|L]; [rewrite (iv_nil _ _ I q L); constructor|].
  assert (G : forall l, NoDup l -> (forall m, In m l -> In m (f q)) -> NoDup (map (comp_of h) l)).
  { intros l ND. induction ND as [|m l NI ND IH]; cbn; intro SUB; constructor.
    - rewrite in_map_iff. intros (m' & A & B). apply NI.
      destruct (iv_comp _ _ I q m L (SUB m (or_introl eq_refl))) as [c C]. destruct (iv_comp _ _ I q m' L (SUB m' (or_intror B))) as [c' C'].
      unfold comp_of in A. rewrite C, C' in A. subst c'. rewrite (iv_uniq h f c q m m' I L); auto.
    - apply IH. intros x X. apply SUB. auto. }
  apply G; auto. apply (iv_nodup h f q I).
Qed.

(** *** the steps that operations consist of *)
Inductive prim : heap -> (nat -> list nat) -> heap -> (nat -> list nat) -> Prop :=
| pr_in : forall h f h' q a b c p, Inv h f -> (q < nq h)%nat -> f q = a ++ b -> member c q h = None -> xltb (room (qq h q)) (Fin 0) = false ->
    inserted h h' q c p -> Inv h' (upd f q (a ++ nm h :: b)) -> prim h f h' (upd f q (a ++ nm h :: b))
| pr_out : forall h f h' q a m b c, Inv h f -> (q < nq h)%nat -> f q = a ++ m :: b -> m_comp (mm h m) = Some c ->
    left h h' q c m -> Inv h' (upd f q (a ++ b)) -> prim h f h' (upd f q (a ++ b))
| pr_mv : forall h f h' q a m b c x y p, Inv h f -> (q < nq h)%nat -> f q = a ++ m :: b -> m_comp (mm h m) = Some c -> a ++ b = x ++ y ->
    moved h h' q m p -> Inv h' (upd f q (x ++ m :: y)) -> prim h f h' (upd f q (x ++ m :: y))
| pr_cap : forall h f q cap av, Inv h f -> (q < nq h)%nat -> prim h f (set_q q (fun v => w_av (av v) (w_cap cap v)) h) f
| pr_new : forall h f cap, Inv h f -> prim h f (fst (new_queue cap h)) (upd f (nq h) [])
| pr_tick : forall h f dt, Inv h f -> 0 <= dt -> prim h f (mkH (mm h) (nm h) (qq h) (nq h) (mb h) (ck h + dt) (its h) (ni h)) f.
Inductive prims : heap -> (nat -> list nat) -> heap -> (nat -> list nat) -> Prop :=
| ps_refl : forall h f, Inv h f -> prims h f h f
| ps_step : forall h f h1 f1 h2 f2, prims h f h1 f1 -> prim h1 f1 h2 f2 -> prims h f h2 f2.
Lemma ps_trans : forall h f h1 f1 h2 f2, prims h f h1 f1 -> prims h1 f1 h2 f2 -> prims h f h2 f2.
Proof. intros h f h1 f1 h2 f2 A B. induction B as [|? ? ? ? ? ? B IH P]; auto. exact (ps_step _ _ _ _ _ _ (IH A) P). Qed.
Lemma ps_one : forall h f h1 f1, prim h f h1 f1 -> prims h f h1 f1.
Proof. intros h f h1 f1 A. eapply ps_step; [apply ps_refl|exact A]. destruct A; auto. Qed.

Lemma inv_same : forall h h' f, Inv h f -> mm h' = mm h -> nm h' = nm h -> nq h' = nq h -> mb h' = mb h ->
  (forall q, u_head (qq h' q) = u_head (qq h q) /\ u_tail (qq h' q) = u_tail (qq h q) /\ u_len (qq h' q) = u_len (qq h q)) -> Inv h' f.
Proof.
  intros h h' f I E1 E2 E3 E4 E5. constructor; unfold member; rewrite ?E1, ?E2, ?E3, ?E4.
  - intros q L. destruct (E5 q) as (-> & -> & _). apply (iv_lnk _ _ I q L).
  - intros q L. destruct (E5 q) as (-> & -> & _). apply (iv_nd _ _ I q L).
  - intros q m L. destruct (E5 q) as (-> & -> & _). apply (iv_lt _ _ I q m L).
  - intros q L. destruct (E5 q) as (-> & -> & _). apply (iv_end _ _ I q L).
  - apply (iv_comp _ _ I).
  - apply (iv_live _ _ I).
  - intros q L. destruct (E5 q) as (_ & _ & ->). apply (iv_len _ _ I q L).
  - apply (iv_mb _ _ I).
  - apply (iv_keys _ _ I).
  - apply (iv_nil _ _ I).
Qed.
Lemma set_cap_inv : forall h f q cap av, Inv h f -> Inv (set_q q (fun v => w_av (av v) (w_cap cap v)) h) f.
Proof.
  intros. eapply inv_same; eauto. intro q'. cbn. unfold upd. destruct (Nat.eqb_spec q' q); subst; cbn; auto.
Qed.
Lemma new_inv : forall h f cap, Inv h f -> Inv (fst (new_queue cap h)) (upd f (nq h) []).
Proof.
  intros h f cap I. unfold new_queue. cbv zeta. cbn [fst].
  match goal with |- Inv ?x _ => set (h' := x) end.
  assert (EN : nm h' = S (S (nm h))) by reflexivity. assert (EQ : nq h' = S (nq h)) by reflexivity. assert (EB : mb h' = mb h) by reflexivity.
  assert (OM : forall x, (x < nm h)%nat -> mm h' x = mm h x) by (intros x Lx; unfold h'; cbn [mm]; rewrite !upd_diff by lia; reflexivity).
  assert (OQ : forall x, x <> nq h -> qq h' x = qq h x) by (intros x Lx; unfold h'; cbn [qq]; rewrite !upd_diff by lia; reflexivity).
  assert (NQ : qq h' (nq h) = mkQu (nm h) (S (nm h)) 0 cap cap [] 0 0 0 [(ck h, 0%Z)] []) by (unfold h'; cbn [qq]; apply upd_same).
  assert (NA : mm h' (nm h) = mkQm (Some (S (nm h))) None (Fin 0) None (nq h) (ck h)) by (unfold h'; cbn [mm]; rewrite upd_diff by lia; apply upd_same).
  assert (NB : mm h' (S (nm h)) = mkQm None (Some (nm h)) (Fin 0) None (nq h) (ck h)) by (unfold h'; cbn [mm]; apply upd_same).
  clearbody h'.
  assert (C : forall q, (q < nq h')%nat -> q = nq h \/ ((q < nq h)%nat /\ q <> nq h)) by (intros q Lq; rewrite EQ in Lq; lia).
  constructor.
  - intros q Lq. destruct (C q Lq) as [->|[L N]].
    + rewrite NQ, upd_same. cbn. intros x y [[-> ->]|[]]. rewrite NA, NB. auto.
    + rewrite OQ, upd_diff by auto. eapply linked_ext; [apply (iv_lnk _ _ I q L)|]. intros m IM. apply OM. apply (iv_lt _ _ I q m L IM).
  - intros q Lq. destruct (C q Lq) as [->|[L N]].
    + rewrite NQ, upd_same. cbn. constructor; [cbn; lia|]. constructor; [cbn; tauto|constructor].
    + rewrite OQ, upd_diff by auto. apply (iv_nd _ _ I q L).
  - intros q m Lq IM. rewrite EN. destruct (C q Lq) as [->|[L N]].
    + rewrite NQ, upd_same in IM. cbn in IM. destruct IM as [<-|[<-|[]]]; [rewrite NA|rewrite NB]; cbn; split; auto; lia.
    + rewrite OQ, upd_diff in IM by auto. destruct (iv_lt _ _ I q m L IM). rewrite OM by auto. split; [lia|auto].
  - intros q Lq. destruct (C q Lq) as [->|[L N]].
    + rewrite NQ. cbn. rewrite NA, NB. cbn. auto.
    + rewrite OQ by auto. rewrite !OM; [apply (iv_end _ _ I q L)| |]; apply (iv_lt _ _ I q _ L); [right; apply in_or_app|]; cbn; auto.
  - intros q m Lq IM. destruct (C q Lq) as [->|[L N]].
    + rewrite upd_same in IM. destruct IM.
    + rewrite upd_diff in IM by auto. rewrite OM; [apply (iv_comp _ _ I q m L IM)|]. apply (iv_in_lt _ _ _ _ I L IM).
  - intros m c Lm Cm. rewrite EN in Lm.
    assert (Lm' : (m < nm h)%nat). { destruct (Nat.eq_dec m (nm h)) as [->|]; [rewrite NA in Cm; discriminate|]. destruct (Nat.eq_dec m (S (nm h))) as [->|]; [rewrite NB in Cm; discriminate|]. lia. }
    rewrite OM in * by auto. destruct (iv_live _ _ I m c Lm' Cm). split; [lia|]. rewrite upd_diff by lia. auto.
  - intros q Lq. destruct (C q Lq) as [->|[L N]].
    + rewrite NQ, upd_same. reflexivity.
    + rewrite OQ, upd_diff by auto. apply (iv_len _ _ I q L).
  - intros c q m. unfold member. rewrite EB. pose proof (iv_mb _ _ I c q m) as X. unfold member in X. rewrite X. split.
    + intros (A1 & A2 & A3). rewrite upd_diff by lia. rewrite OM; [|apply (iv_in_lt _ _ _ _ I A1 A2)]. split; [lia|auto].
    + intros (A1 & A2 & A3). destruct (C q A1) as [->|[L N]]; [rewrite upd_same in A2; destruct A2|]. rewrite upd_diff in A2 by auto.
      rewrite OM in A3; [|apply (iv_in_lt _ _ _ _ I L A2)]. auto.
  - intro c. rewrite EB. apply (iv_keys _ _ I).
  - intros q Lq. rewrite EQ in Lq. rewrite upd_diff by lia. apply (iv_nil _ _ I). lia.
Qed.
Lemma start_inv : forall t0, Inv (start t0) (fun _ => []).
Proof.
  intro t0. constructor; cbn.
  all: try (intros; lia).
  - intros c q m. unfold member. cbn. split; [discriminate|intros [? _]; lia].
  - intros c. constructor.
  - auto.
Qed.
Lemma prim_inv : forall h f h' f', prim h f h' f' -> Inv h f /\ Inv h' f'.
Proof.
  intros h f h' f' P. destruct P; auto; (split; [auto|]).
  - now apply set_cap_inv.
  - now apply new_inv.
  - eapply inv_same; eauto.
Qed.
Lemma prims_inv : forall h f h' f', prims h f h' f' -> Inv h f /\ Inv h' f'.
Proof. intros h f h' f' P. induction P as [|h f h1 f1 h2 f2 P IH Q]; auto. apply prim_inv in Q. tauto. Qed.

(** only queue q changes, its list becomes L; no Qmember leaves it (g), or none enters it *)
Record only (g : bool) (h h' : heap) (f f' : nat -> list nat) (q : nat) (L : list entry) : Prop := {
  on_inv : Inv h' f'; on_prims : prims h f h' f'; on_nq : nq h' = nq h; on_cap : forall q', u_cap (qq h' q') = u_cap (qq h q');
  on_q : ents h' (f' q) = L; on_o : forall q', q' <> q -> ents h' (f' q') = ents h (f q'); on_f : forall q', q' <> q -> f' q' = f q';
  on_g : forall m, if g then In m (f q) -> In m (f' q) else In m (f' q) -> In m (f q)
}.
Lemma only_same : forall g h h' f f' q L, Inv h f -> only g h h' f f' q L -> same (abs h') (p_set (abs h) q L).
Proof.
  intros g h h' f f' q L I [A B C D E F _ _]. split; [exact C|]. intros q' Lq. cbn in Lq. split; [apply D|].
  cbn [p_set p_l]. rewrite (abs_l h' f' q' A Lq). destruct (Nat.eq_dec q' q) as [->|N]; [rewrite upd_same; exact E|].
  rewrite upd_diff by auto. rewrite (abs_l h f q' I); [apply F; auto|lia].
Qed.
Lemma only_refl : forall g h f q, Inv h f -> only g h h f f q (ents h (f q)).
Proof. intros g h f q I. constructor; auto; [now apply ps_refl|destruct g; auto]. Qed.
Lemma only_trans : forall g h1 h2 h3 f1 f2 f3 q L M, only g h1 h2 f1 f2 q L -> only g h2 h3 f2 f3 q M -> only g h1 h3 f1 f3 q M.
Proof.
  intros g h1 h2 h3 f1 f2 f3 q L M [A B C D E F G K] [A' B' C' D' E' F' G' K']. constructor; auto.
  - eapply ps_trans; eauto.
  - congruence.
  - intro q'. rewrite D'. apply D.
  - intros q' N. rewrite F', F; auto.
  - intros q' N. rewrite G', G; auto.
  - intro m. specialize (K m). specialize (K' m). destruct g; auto.
Qed.
Lemma len_ents : forall h l, length (ents h l) = length l.
Proof. intros. apply map_length. Qed.
Lemma room_full : forall h f q, Inv h f -> (q < nq h)%nat -> xltb (room (qq h q)) (Fin 0) = is_full (u_cap (qq h q)) (ents h (f q)).
Proof.
  intros h f q I L. unfold room, is_full. rewrite len_ents, <- (iv_len _ _ I q L). destruct (u_cap (qq h q)) as [x|]; cbn; [|reflexivity].
  unfold xltb, xleb. f_equal. set (n := u_len (qq h q)).
  assert (EQ : inject_Z (n + 1) == inject_Z n + 1) by (rewrite inject_Z_plus; reflexivity).
  destruct (Qle_bool 0 (x - inject_Z n - 1)) eqn:A; destruct (Qle_bool (inject_Z (n + 1)) x) eqn:B; auto; exfalso;
  (apply Qle_bool_iff in A || apply Qle_bool_false_iff in A); (apply Qle_bool_iff in B || apply Qle_bool_false_iff in B); lra.
Qed.

Lemma ents_app : forall h a b, ents h (a ++ b) = ents h a ++ ents h b.
Proof. intros. apply map_app. Qed.

(** entering just before number k *)
Lemma put_ok : forall h f q c k p, Inv h f -> (q < nq h)%nat -> is_in c (ents h (f q)) = false ->
  exists h' f' r, insert_in_front_of (fst_or (skipn k (f q)) (u_tail (qq h q))) c q p h = (h', r) /\
    only true h h' f f' q (if is_full (u_cap (qq h q)) (ents h (f q)) then ents h (f q) else put k (c, p) (ents h (f q))) /\
    r = (if is_full (u_cap (qq h q)) (ents h (f q)) then Rer EFull else Rok tt) /\
    (is_full (u_cap (qq h q)) (ents h (f q)) = true -> h' = h).
Proof.
  intros h f q c k p I L NI. pose proof (room_full h f q I L) as RF.
  destruct (is_full (u_cap (qq h q)) (ents h (f q))) eqn:FU.
  - exists h, f, (Rer EFull). rewrite insert_full by auto. split; auto. split; [now apply only_refl|auto].
  - rewrite (in_view h f q c I L) in NI. destruct (member c q h) eqn:MB; [discriminate|].
    assert (SP : f q = firstn k (f q) ++ skipn k (f q)) by (symmetry; apply firstn_skipn).
    destruct (insert_ok h f q (firstn k (f q)) (skipn k (f q)) c p I L SP MB RF) as (h' & E & INS & I').
    exists h', (upd f q (firstn k (f q) ++ nm h :: skipn k (f q))), (Rok tt). split; [auto|]. split; [|split; [auto|discriminate]].
    assert (OLD : forall l q', (q' < nq h)%nat -> (forall m, In m l -> In m (f q')) -> ents h' l = ents h l).
    { intros l q' L' S. apply ents_ext. intros m IM. destruct INS. destruct (in_old m) as (-> & -> & _); auto. pose proof (proj1 (iv_in_lt _ _ _ _ I L' (S m IM))). lia. }
    constructor; auto.
    + apply ps_one. eapply pr_in; eauto.
    + apply INS.
    + intro q'. destruct INS. destruct (Nat.eq_dec q' q) as [->|N]; [rewrite in_q; reflexivity|rewrite in_qo; auto].
    + rewrite upd_same. unfold put. rewrite ents_app. cbn [ents map]. fold (ents h' (skipn k (f q))).
      assert (IF : forall m, In m (firstn k (f q)) -> In m (f q)) by (intros m IM; rewrite SP; apply in_or_app; auto).
      assert (IS : forall m, In m (skipn k (f q)) -> In m (f q)) by (intros m IM; rewrite SP; apply in_or_app; auto).
      rewrite (OLD _ q L IF), (OLD _ q L IS). unfold ents. rewrite firstn_map, skipn_map. f_equal. f_equal.
      unfold ent, comp_of. destruct INS. destruct in_new as (-> & -> & _). reflexivity.
    + intros q' N. rewrite upd_diff by auto. destruct (le_lt_dec (nq h) q') as [L'|L']; [rewrite (iv_nil _ _ I q' L'); reflexivity|]. apply (OLD _ q'); auto.
    + intros q' N. now apply upd_diff.
    + intros m IM. rewrite upd_same. rewrite SP in IM. apply in_or_app. apply in_app_or in IM. cbn. tauto.
Qed.
Lemma skipn_map' : forall (A B : Type) (g : A -> B) k l, skipn k (map g l) = map g (skipn k l).
Proof. intros. apply skipn_map. Qed.

(** leaving *)
Lemma drop_app : forall c a b, drop c (a ++ b) = drop c a ++ drop c b.
Proof. intros. apply filter_app. Qed.
Lemma drop_cons : forall c e l, drop c (e :: l) = if Nat.eqb c (fst e) then drop c l else e :: drop c l.
Proof. intros c e l. unfold drop. cbn [filter]. destruct (Nat.eqb c (fst e)); reflexivity. Qed.
Lemma ents_cons : forall h m l, ents h (m :: l) = ent h m :: ents h l.
Proof. reflexivity. Qed.
Lemma drop_ents : forall h f q a m b c, Inv h f -> (q < nq h)%nat -> f q = a ++ m :: b -> m_comp (mm h m) = Some c -> drop c (ents h (f q)) = ents h (a ++ b).
Proof.
  intros h f q a m b c I L E CM.
  assert (G : forall l, (forall x, In x l -> In x (f q) /\ x <> m) -> drop c (ents h l) = ents h l).
  { induction l as [|x l IH]; intro S; [reflexivity|]. rewrite ents_cons, drop_cons. destruct (S x (or_introl eq_refl)) as [S1 S2].
    destruct (iv_comp _ _ I q x L S1) as [c' C']. assert (EC : ent h x = (c', m_prio (mm h x))) by (unfold ent, comp_of; now rewrite C').
    rewrite EC. cbn [fst]. destruct (Nat.eqb_spec c c') as [->|N]; [exfalso; apply S2; apply (iv_uniq h f c' q x m I L); auto; rewrite E; apply in_or_app; cbn; auto|].
    rewrite IH; auto. intros y Y. apply S. cbn. auto. }
  pose proof (iv_nodup h f q I) as ND. rewrite E in ND. pose proof (NoDup_remove_2 _ _ _ ND) as NI.
  rewrite E. rewrite !ents_app, drop_app.
  rewrite G; [|intros x X; split; [rewrite E; apply in_or_app; auto|intros ->; apply NI; apply in_or_app; auto]].
  f_equal. rewrite ents_cons, drop_cons. assert (EC : ent h m = (c, m_prio (mm h m))) by (unfold ent, comp_of; now rewrite CM).
  rewrite EC. cbn [fst]. rewrite Nat.eqb_refl. apply G. intros x X. split; [rewrite E; apply in_or_app; cbn; auto|intros ->; apply NI; apply in_or_app; auto].
Qed.
Lemma del_ok : forall h f q c, Inv h f -> (q < nq h)%nat ->
  exists h' f' r, leave c q h = (h', r) /\ only false h h' f f' q (drop c (ents h (f q))) /\
    r = (if is_in c (ents h (f q)) then Rok tt else Rer EValue) /\ (is_in c (ents h (f q)) = false -> h' = h).
Proof.
  intros h f q c I L. rewrite (in_view h f q c I L). destruct (member c q h) as [m|] eqn:MB.
  - apply (iv_mb _ _ I) in MB. destruct MB as (_ & IM & CM). destruct (split_in m (f q) IM) as (a & b & E).
    destruct (leave_ok h f q a m b c I L E CM) as (h' & X & LF & I').
    exists h', (upd f q (a ++ b)), (Rok tt). split; auto. split; [|split; [auto|discriminate]].
    pose proof (iv_nodup h f q I) as ND. rewrite E in ND. pose proof (NoDup_remove_2 _ _ _ ND) as NI.
    assert (OLD : forall l, ~ In m l -> ents h' l = ents h l).
    { intros l S. apply ents_ext. intros x IX. destruct LF. destruct (lf_old x) as (-> & _). split; auto. apply lf_comp. intros ->. auto. }
    constructor; auto.
    + apply ps_one. eapply pr_out; eauto.
    + apply LF.
    + intro q'. destruct LF. destruct (Nat.eq_dec q' q) as [->|N]; [rewrite lf_q; reflexivity|rewrite lf_qo; auto].
    + rewrite upd_same, (drop_ents h f q a m b c I L E CM). apply OLD; auto.
    + intros q' N. rewrite upd_diff by auto. apply OLD. intro C. pose proof (iv_q_lt _ _ _ _ I C) as L'.
      pose proof (proj2 (iv_in_lt _ _ _ _ I L' C)). pose proof (proj2 (iv_in_lt _ _ _ _ I L IM)). congruence.
    + intros q' N. now apply upd_diff.
    + intros x IX. rewrite upd_same in IX. rewrite E. apply in_or_app. apply in_app_or in IX. cbn. tauto.
  - exists h, f, (Rer EValue). rewrite leave_none by auto. split; auto. split; [|auto].
    assert (X : is_in c (ents h (f q)) = false) by (rewrite (in_view h f q c I L), MB; reflexivity).
    assert (Y : drop c (ents h (f q)) = ents h (f q)).
    { apply is_in_false in X. revert X. generalize (ents h (f q)). induction l as [|e l IH]; intro X; [reflexivity|]. rewrite drop_cons. destruct (Nat.eqb_spec c (fst e)) as [->|N]; [exfalso; apply X; cbn; auto|].
      rewrite IH; auto. intro C. apply X. cbn. auto. }
    rewrite Y. now apply only_refl.
Qed.

(** *** the operations on one queue *)
Definition good_as (g : bool) (o : qop) (h : heap) (f : nat -> list nat) (q : nat) : Prop :=
  exists h' f' r, qexec o h = (h', r) /\ only g h h' f f' q (fst (on_queue o (u_cap (qq h q)) (ents h (f q)))) /\ r = snd (on_queue o (u_cap (qq h q)) (ents h (f q))) /\
    (forall e, r = Rer e -> (forall l, o <> QExtend q l) -> h' = h).
Definition good (o : qop) (h : heap) (f : nat -> list nat) (q : nat) : Prop := exists g, good_as g o h f q.

Lemma prio_at : forall h f q k, Inv h f -> (q < nq h)%nat -> m_prio (mm h (fst_or (skipn k (f q)) (u_tail (qq h q)))) = prio_nth k (ents h (f q)).
Proof.
  intros h f q k I L. unfold prio_nth, ents. rewrite map_map. cbn. generalize (f q). intro l. revert l.
  induction k as [|k IH]; intros [|x l]; cbn; auto; apply (iv_end _ _ I q L).
Qed.
Lemma prio_lst : forall h f q, Inv h f -> (q < nq h)%nat -> m_prio (mm h (lst_or (f q) (u_head (qq h q)))) = prio_last (ents h (f q)).
Proof.
  intros h f q I L. unfold prio_last, ents. rewrite map_map. cbn. generalize (f q). intro l. unfold lst_or.
  induction l as [|x l IH]; cbn; [apply (iv_end _ _ I q L)|]. destruct l; auto.
Qed.
Lemma skipn_len : forall (A : Type) (l : list A), skipn (length l) l = [].
Proof. intros. apply skipn_all2. lia. Qed.

Lemma add_good : forall h f q c k p, Inv h f -> (q < nq h)%nat -> is_in c (ents h (f q)) = false ->
  exists h' f' r, unit_ (insert_in_front_of (fst_or (skipn k (f q)) (u_tail (qq h q))) c q p) h = (h', r) /\
    only true h h' f f' q (fst (add (u_cap (qq h q)) c k p (ents h (f q)))) /\ r = snd (add (u_cap (qq h q)) c k p (ents h (f q))) /\
    (forall e, r = Rer e -> h' = h).
Proof.
  intros h f q c k p I L NI. destruct (put_ok h f q c k p I L NI) as (h' & f' & r & E & O & R & F).
  unfold unit_, hbind. rewrite E. unfold add. rewrite NI. destruct (is_full _ _) eqn:FU; subst r.
  - exists h', f', (Rer EFull). cbn. auto.
  - exists h', f', (Rok None). cbn. split; auto. split; auto. split; auto. discriminate.
Qed.
Lemma dup_good : forall h f q o, Inv h f -> (q < nq h)%nat -> (exists e, qexec o h = (h, Rer e) /\ on_queue o (u_cap (qq h q)) (ents h (f q)) = (ents h (f q), Rer e)) -> forall g, good_as g o h f q.
Proof.
  intros h f q o I L (e & E & S) g. exists h, f, (Rer e). rewrite S. cbn. split; auto. split; [now apply only_refl|]. auto.
Qed.
Lemma add_dup : forall cap c k p L, is_in c L = true -> add cap c k p L = (L, Rer EValue).
Proof. intros cap c k p L X. unfold add. now rewrite X. Qed.

Lemma behind_snoc : forall p L e, behind_le p (L ++ [e]) = if xleb (snd e) p then length (L ++ [e]) else behind_le p L.
Proof.
  intros p L e. induction L as [|x L IH]; cbn [app behind_le length]; [reflexivity|]. rewrite IH. destruct (xleb (snd e) p); auto.
  rewrite app_length. cbn. destruct (length L + 1)%nat eqn:X; [lia|reflexivity].
Qed.
Lemma behind_len : forall p L, (behind_le p L <= length L)%nat.
Proof. intros p L. induction L as [|x L IH]; cbn; auto. destruct (behind_le p L); [destruct xleb; lia|lia]. Qed.
Lemma back_ok : forall h f q p, Inv h f -> (q < nq h)%nat -> forall a b fuel, f q = a ++ b -> (length a < fuel)%nat ->
  back fuel (u_head (qq h q)) p (fst_or b (u_tail (qq h q))) h = Rok (fst_or (skipn (behind_le p (ents h a)) a ++ b) (u_tail (qq h q))).
Proof.
  intros h f q p I L. induction a as [|m a IH] using rev_ind; intros b fuel E Lt; (destruct fuel as [|fuel]; [lia|]); cbn [back].
  - rewrite (pd_at h f q [] b I L E). cbn. now rewrite Nat.eqb_refl.
  - rewrite (pd_at h f q (a ++ [m]) b I L E). cbn [rbind]. rewrite lst_or_app. destruct (iv_head_notin h f q I L) as (NH & _ & _).
    destruct (Nat.eqb_spec m (u_head (qq h q))) as [C|_]; [exfalso; apply NH; rewrite <- C, E; apply in_or_app; left; apply in_or_app; cbn; auto|].
    cbn [orb].
    assert (BL : behind_le p (ents h (a ++ [m])) = if xleb (m_prio (mm h m)) p then length (a ++ [m]) else behind_le p (ents h a)).
    { rewrite ents_app. cbn [ents map]. rewrite behind_snoc. cbn [ent snd]. destruct (xleb _ _); auto. rewrite !app_length. cbn. now rewrite len_ents. }
    destruct (xltb p (m_prio (mm h m))) eqn:X; cbn [negb].
    + rewrite app_length in Lt. cbn in Lt. specialize (IH (m :: b) fuel). cbn [fst_or] in IH. rewrite IH; [|rewrite E, <- app_assoc; reflexivity|lia].
      f_equal. rewrite BL. unfold xltb in X. destruct (xleb (m_prio (mm h m)) p); [discriminate|].
      rewrite skipn_app. assert (BLE : (behind_le p (ents h a) <= length a)%nat).
      { rewrite <- (len_ents h a). apply behind_len. }
      replace (behind_le p (ents h a) - length a)%nat with 0%nat by lia. cbn [skipn]. rewrite <- app_assoc. reflexivity.
    + rewrite BL. unfold xltb in X. destruct (xleb (m_prio (mm h m)) p); [|discriminate]. rewrite skipn_len. reflexivity.
Qed.

Lemma enter_good : forall h f q c po, Inv h f -> (q < nq h)%nat -> good_as true (QEnter c q po) h f q.
Proof.
  intros h f q c po I L. destruct (is_in c (ents h (f q))) eqn:IN.
  - apply dup_good; auto. exists EValue. rewrite (in_view h f q c I L) in IN. split.
    + cbn. unfold unit_, enter, hbind, check_not_in. destruct (member c q h); [reflexivity|discriminate].
    + cbn. rewrite <- (in_view h f q c I L) in IN. destruct po; apply add_dup; auto.
  - assert (MB : member c q h = None) by (rewrite (in_view h f q c I L) in IN; destruct (member c q h); [discriminate|auto]).
    unfold good_as. destruct po as [p|].
    + destruct (add_good h f q c (place p (ents h (f q))) p I L IN) as (h' & f' & r & E & O & R & F). exists h', f', r. split; [|cbn; eauto].
      rewrite <- E. cbn [qexec]. unfold unit_, enter, hbind, check_not_in. rewrite MB. unfold rd at 1.
      assert (ML : (1 <=? u_len (qq h q))%Z = match f q with [] => false | _ => true end).
      { rewrite (iv_len _ _ I q L). destruct (f q); [reflexivity|]. apply Z.leb_le. cbn [length]. lia. }
      rewrite ML. rewrite (sc_head h f q I L). destruct (f q) as [|m l] eqn:FQ.
      * cbn [rbind]. unfold rd. assert (B := back_ok h f q p I L [] [] (S (nm h)) FQ). cbn [fst_or] in B. rewrite B by (cbn; lia). cbn. reflexivity.
      * cbn [rbind fst_or]. cbn [ents map place ent snd]. destruct (xltb p (m_prio (mm h m))) eqn:X; [reflexivity|]. fold (ents h l). change ((comp_of h m, m_prio (mm h m)) :: ents h l) with (ents h (m :: l)). 
        unfold rd. assert (B := back_ok h f q p I L (m :: l) [] (S (nm h))). cbn [fst_or] in B. rewrite B; [rewrite app_nil_r; reflexivity|rewrite app_nil_r; auto|].
        pose proof (iv_length h f q I L). rewrite FQ in H. lia.
    + destruct (add_good h f q c (length (f q)) (prio_last (ents h (f q))) I L IN) as (h' & f' & r & E & O & R & F). exists h', f', r. cbn [on_queue]. rewrite len_ents. split; [|eauto].
      rewrite <- E. cbn [qexec]. unfold unit_, enter, hbind, check_not_in, rd. rewrite MB. rewrite (pd_tail h f q I L). rewrite (prio_lst h f q I L), skipn_len. reflexivity.
Qed.
Lemma enter_head_good : forall h f q c, Inv h f -> (q < nq h)%nat -> good (QEnterHead c q) h f q.
Proof.
  intros h f q c I L. destruct (is_in c (ents h (f q))) eqn:IN.
  - exists true; apply dup_good; auto; exists EValue. split; [|apply add_dup; auto]. rewrite (in_view h f q c I L) in IN.
    cbn. unfold unit_, enter_at_head, hbind, check_not_in. destruct (member c q h); [reflexivity|discriminate].
  - assert (MB : member c q h = None) by (rewrite (in_view h f q c I L) in IN; destruct (member c q h); [discriminate|auto]).
    destruct (add_good h f q c 0 (prio_nth 0 (ents h (f q))) I L IN) as (h' & f' & r & E & O & R & F). exists true, h', f', r. split; [|cbn; eauto].
    rewrite <- E. cbn [qexec]. unfold unit_, enter_at_head, hbind, check_not_in, rd. rewrite MB. rewrite (sc_head h f q I L).
    rewrite <- (prio_at h f q 0 I L). reflexivity.
Qed.
Lemma pos_ok : forall h f q a m b c, Inv h f -> (q < nq h)%nat -> f q = a ++ m :: b -> m_comp (mm h m) = Some c -> pos_of c (ents h (f q)) = length a.
Proof.
  intros h f q a m b c I L E CM. rewrite E.
  assert (G : forall x, In x a -> comp_of h x <> c).
  { intros x X C. assert (XQ : In x (f q)) by (rewrite E; apply in_or_app; auto). destruct (iv_comp _ _ I q x L XQ) as [c' C']. unfold comp_of in C. rewrite C' in C. subst c'.
    assert (x = m) by (apply (iv_uniq h f c q x m I L); auto; rewrite E; apply in_or_app; cbn; auto). subst x.
    pose proof (iv_nodup h f q I) as ND. rewrite E in ND. apply (NoDup_remove_2 _ _ _ ND). apply in_or_app. auto. }
  clear E. induction a as [|x a IH]; cbn.
  - unfold comp_of. rewrite CM. now rewrite Nat.eqb_refl.
  - destruct (Nat.eqb_spec c (comp_of h x)) as [C|_]; [exfalso; apply (G x); cbn; auto|]. f_equal. apply IH. intros y Y. apply G. cbn. auto.
Qed.
Lemma skipn_mid : forall (A : Type) (a b : list A), skipn (length a) (a ++ b) = b.
Proof. intros. rewrite skipn_app, skipn_len, Nat.sub_diag. reflexivity. Qed.
Lemma enter_front_good : forall h f q c x, Inv h f -> (q < nq h)%nat -> good (QEnterFront c q x) h f q.
Proof.
  intros h f q c x I L. destruct (is_in c (ents h (f q))) eqn:IN.
  - exists true; apply dup_good; auto; exists EValue. split; [|cbn; rewrite IN; cbn; apply add_dup; auto]. rewrite (in_view h f q c I L) in IN.
    cbn. unfold unit_, enter_in_front_of, hbind, check_not_in. destruct (member c q h); [reflexivity|discriminate].
  - assert (MB : member c q h = None) by (rewrite (in_view h f q c I L) in IN; destruct (member c q h); [discriminate|auto]).
    destruct (is_in x (ents h (f q))) eqn:INX; assert (MX := INX); rewrite (in_view h f q x I L) in MX; destruct (member x q h) as [m|] eqn:MB'; try discriminate.
    + assert (MM := MB'). apply (iv_mb _ _ I) in MM. destruct MM as (_ & IM & CM). destruct (split_in m (f q) IM) as (a & b & EQ).
      destruct (add_good h f q c (pos_of x (ents h (f q))) (prio_nth (pos_of x (ents h (f q))) (ents h (f q))) I L IN) as (h' & f' & r & E & O & R & F).
      exists true, h', f', r. split; [|cbn; rewrite IN, INX; cbn; eauto].
      rewrite <- E. cbn [qexec]. unfold unit_, enter_in_front_of, hbind, check_not_in, check_in, rd. rewrite MB, MB'.
      rewrite <- (prio_at h f q _ I L). rewrite (pos_ok h f q a m b x I L EQ CM), EQ, skipn_mid. reflexivity.
    + exists true; apply dup_good; auto; exists EValue. split; [|cbn; rewrite IN, INX; cbn; auto]. cbn. unfold unit_, enter_in_front_of, hbind, check_not_in, check_in. rewrite MB, MB'. reflexivity.
Qed.
Lemma enter_behind_good : forall h f q c x, Inv h f -> (q < nq h)%nat -> good (QEnterBehind c q x) h f q.
Proof.
  intros h f q c x I L. destruct (is_in c (ents h (f q))) eqn:IN.
  - exists true; apply dup_good; auto; exists EValue. split; [|cbn; rewrite IN; cbn; apply add_dup; auto]. rewrite (in_view h f q c I L) in IN.
    cbn. unfold unit_, enter_behind, hbind, check_not_in. destruct (member c q h); [reflexivity|discriminate].
  - assert (MB : member c q h = None) by (rewrite (in_view h f q c I L) in IN; destruct (member c q h); [discriminate|auto]).
    destruct (is_in x (ents h (f q))) eqn:INX; assert (MX := INX); rewrite (in_view h f q x I L) in MX; destruct (member x q h) as [m|] eqn:MB'; try discriminate.
    + assert (MM := MB'). apply (iv_mb _ _ I) in MM. destruct MM as (_ & IM & CM). destruct (split_in m (f q) IM) as (a & b & EQ).
      destruct (add_good h f q c (S (pos_of x (ents h (f q)))) (prio_nth (pos_of x (ents h (f q))) (ents h (f q))) I L IN) as (h' & f' & r & E & O & R & F).
      exists true, h', f', r. split; [|cbn; rewrite IN, INX; cbn; eauto].
      rewrite <- E. cbn [qexec]. unfold unit_, enter_behind, hbind, check_not_in, check_in, rd. rewrite MB, MB'. rewrite (sc_in h f q a m b I L EQ).
      rewrite <- (prio_at h f q _ I L). rewrite (pos_ok h f q a m b x I L EQ CM), EQ, skipn_mid. cbn [fst_or].
      replace (S (length a)) with (length (a ++ [m])) by (rewrite app_length; cbn; lia). replace (a ++ m :: b) with ((a ++ [m]) ++ b) by (rewrite <- app_assoc; reflexivity). rewrite skipn_mid. reflexivity.
    + exists true; apply dup_good; auto; exists EValue. split; [|cbn; rewrite IN, INX; cbn; auto]. cbn. unfold unit_, enter_behind, hbind, check_not_in, check_in. rewrite MB, MB'. reflexivity.
Qed.
Lemma upto_ok : forall h f q, Inv h f -> (q < nq h)%nat -> forall b a fuel n, f q = a ++ b -> (length b < fuel)%nat -> (length a <= n)%nat ->
  upto fuel (u_tail (qq h q)) (Z.of_nat n) (Z.of_nat (length a)) (fst_or b (u_tail (qq h q))) h = Rok (fst_or (skipn n (f q)) (u_tail (qq h q))).
Proof.
  intros h f q I L. induction b as [|m b IH]; intros a fuel n E Lt Ln; (destruct fuel as [|fuel]; [lia|]); cbn [upto fst_or].
  - rewrite Nat.eqb_refl. rewrite skipn_all2; [reflexivity|]. rewrite E, app_nil_r. auto.
  - destruct (iv_head_notin h f q I L) as (_ & NT & _).
    destruct (Nat.eqb_spec m (u_tail (qq h q))) as [C|_]; [exfalso; apply NT; rewrite <- C, E; apply in_or_app; cbn; auto|].
    destruct (Z.eqb_spec (Z.of_nat (length a)) (Z.of_nat n)) as [C|C].
    + apply Nat2Z.inj in C. subst n. rewrite E, skipn_mid. reflexivity.
    + rewrite (sc_in h f q a m b I L E). cbn [rbind].
      replace (Z.of_nat (length a) + 1)%Z with (Z.of_nat (length (a ++ [m]))) by (rewrite app_length; cbn; lia).
      apply IH; [rewrite E, <- app_assoc; reflexivity|cbn in Lt; lia|rewrite app_length; cbn; lia].
Qed.
Lemma insert_good : forall h f q c n, Inv h f -> (q < nq h)%nat -> good (QInsert n c q) h f q.
Proof.
  intros h f q c n I L.
  destruct ((n <? 0)%Z || (Z.of_nat (length (f q)) <? n)%Z) eqn:RG.
  - exists true; apply dup_good; auto; exists EIndex. cbn. rewrite len_ents, RG. split; auto. unfold unit_, insert, hbind, rd. rewrite (iv_len _ _ I q L).
    apply orb_true_iff in RG. destruct (n <? 0)%Z; [reflexivity|]. destruct RG as [?|RG]; [discriminate|]. rewrite RG. reflexivity.
  - assert (RG' := RG). apply orb_false_iff in RG'. destruct RG' as [R1 R2].
    destruct (is_in c (ents h (f q))) eqn:IN.
    + exists true; apply dup_good; auto; exists EValue. cbn. rewrite len_ents, RG. split; [|apply add_dup; auto]. rewrite (in_view h f q c I L) in IN.
      unfold unit_, insert, hbind, rd. rewrite (iv_len _ _ I q L), R1, R2. unfold check_not_in. destruct (member c q h); [reflexivity|discriminate].
    + assert (MB : member c q h = None) by (rewrite (in_view h f q c I L) in IN; destruct (member c q h); [discriminate|auto]).
      destruct (add_good h f q c (Z.to_nat n) (prio_nth (Z.to_nat n) (ents h (f q))) I L IN) as (h' & f' & r & E & O & R & F).
      exists true, h', f', r. split; [|cbn; rewrite len_ents, RG; cbn; eauto].
      rewrite <- E. cbn [qexec]. unfold unit_, insert, hbind, rd. rewrite (iv_len _ _ I q L), R1, R2. unfold check_not_in. rewrite MB. rewrite (sc_head h f q I L). cbn [rbind].
      assert (U := upto_ok h f q I L (f q) [] (S (nm h)) (Z.to_nat n) eq_refl). rewrite Z2Nat.id in U by (apply Z.ltb_ge in R1; lia). cbn [length Z.of_nat] in U.
      rewrite U; [|pose proof (iv_length h f q I L); lia|lia]. rewrite (prio_at h f q _ I L). reflexivity.
Qed.
Lemma leave_good : forall h f q c, Inv h f -> (q < nq h)%nat -> good (QLeave c q) h f q.
Proof.
  intros h f q c I L. destruct (del_ok h f q c I L) as (h' & f' & r & E & O & R & F).
  unfold good, good_as. cbn [qexec on_queue]. unfold unit_, hbind. rewrite E. unfold del.
  destruct (is_in c (ents h (f q))) eqn:IN; subst r.
  - exists false, h', f', (Rok None). cbn. split; auto. split; auto. split; auto. discriminate.
  - exists false, h', f', (Rer EValue). cbn. split; auto. rewrite (F eq_refl) in *.
    split; auto. destruct O. constructor; auto. rewrite on_q0.
    apply is_in_false in IN. revert IN. generalize (ents h (f q)). induction l as [|e l IH]; intro X; [reflexivity|]. rewrite drop_cons. destruct (Nat.eqb_spec c (fst e)) as [->|N]; [exfalso; apply X; cbn; auto|].
    rewrite IH; auto. intro C. apply X. cbn. auto.
Qed.
Lemma before_gt_split : forall h x y p, (forall z, In z x -> xle (m_prio (mm h z)) p) -> (forall z y', y = z :: y' -> xlt p (m_prio (mm h z))) -> before_gt p (ents h (x ++ y)) = length x.
Proof.
  intros h x y p A B. induction x as [|m x IH]; cbn.
  - destruct y as [|m y]; cbn; auto. destruct (xleb (m_prio (mm h m)) p) eqn:X; auto. apply xleb_iff in X. exfalso. apply (xlt_not_le p (m_prio (mm h m))); eauto.
  - assert (X : xleb (m_prio (mm h m)) p = true) by (apply xleb_iff; apply A; cbn; auto). rewrite X. f_equal. apply IH. intros z Z. apply A. cbn. auto.
Qed.
Lemma prio_good : forall h f q c p, Inv h f -> (q < nq h)%nat -> good (QPrio c q p) h f q.
Proof.
  intros h f q c p I L. destruct (is_in c (ents h (f q))) eqn:IN; assert (MX := IN); rewrite (in_view h f q c I L) in MX; destruct (member c q h) as [m|] eqn:MB; try discriminate.
  - assert (MM := MB). apply (iv_mb _ _ I) in MM. destruct MM as (_ & IM & CM). destruct (split_in m (f q) IM) as (a & b & E).
    assert (PR : prio_nth (pos_of c (ents h (f q))) (ents h (f q)) = m_prio (mm h m)).
    { rewrite <- (prio_at h f q _ I L). rewrite (pos_ok h f q a m b c I L E CM), E, skipn_mid. reflexivity. }
    unfold good, good_as. cbn [qexec on_queue]. rewrite IN, PR. unfold unit_, hbind.
    destruct (xeqb p (m_prio (mm h m))) eqn:X.
    + rewrite (prio_same h c q p m MB X). exists true, h, f, (Rok None). cbn. split; auto. split; [now apply only_refl|]. split; auto.
    + destruct (prio_ok h f q a m b c p I L E CM X) as (h' & x & y & S & MV & EXY & PX & PY & I').
      rewrite S. exists true, h', (upd f q (x ++ m :: y)), (Rok None). cbn [hret fst snd]. split; auto. split; [|split; [auto|discriminate]].
      pose proof (iv_nodup h f q I) as ND. rewrite E in ND. pose proof (NoDup_remove_2 _ _ _ ND) as NI. rewrite EXY in NI.
      assert (OLD : forall l, ~ In m l -> ents h' l = ents h l).
      { intros l S'. apply ents_ext. intros z IX. destruct MV. destruct (mv_old z) as (-> & _). split; auto. apply mv_prio. intros ->. auto. }
      rewrite (drop_ents h f q a m b c I L E CM), EXY, (before_gt_split h x y p PX PY).
      constructor; auto.
      * apply ps_one. eapply pr_mv; eauto.
      * apply MV.
      * intro q'. destruct MV. destruct (Nat.eq_dec q' q) as [->|N]; [rewrite mv_q; reflexivity|rewrite mv_qo; auto].
      * rewrite upd_same. unfold put. rewrite <- (len_ents h x). rewrite !ents_app, firstn_app, Nat.sub_diag, firstn_all, skipn_mid. cbn [firstn]. rewrite app_nil_r, ents_cons.
        rewrite (OLD x), (OLD y) by (intro C; apply NI; apply in_or_app; auto). f_equal. f_equal. unfold ent, comp_of. destruct MV. destruct (mv_old m) as (-> & _). rewrite CM, mv_new. reflexivity.
      * intros q' N. rewrite upd_diff by auto. apply OLD. intro C. pose proof (iv_q_lt _ _ _ _ I C) as L'.
        pose proof (proj2 (iv_in_lt _ _ _ _ I L' C)). pose proof (proj2 (iv_in_lt _ _ _ _ I L IM)). congruence.
      * intros q' N. now apply upd_diff.
      * intros z IX. rewrite upd_same. rewrite E in IX. assert (X1 : In z (a ++ b) \/ z = m) by (apply in_app_or in IX; cbn in IX; rewrite in_app_iff; intuition). rewrite EXY, in_app_iff in X1. apply in_or_app. cbn. intuition.
  - exists true; apply dup_good; auto; exists EValue. cbn. rewrite IN. split; auto. unfold unit_, hbind. rewrite prio_none; auto.
Qed.

(** *** reading *)
Lemma nth_from_ok : forall h f q, Inv h f -> (q < nq h)%nat -> forall b a fuel n, f q = a ++ b -> (length b < fuel)%nat -> (length a <= n)%nat ->
  nth_from fuel (u_tail (qq h q)) (Z.of_nat n) (Z.of_nat (length a)) (fst_or b (u_tail (qq h q))) h = Rok (nth_error (names (ents h (f q))) n).
Proof.
  intros h f q I L. induction b as [|m b IH]; intros a fuel n E Lt Ln; (destruct fuel as [|fuel]; [lia|]); cbn [nth_from fst_or].
  - rewrite Nat.eqb_refl. f_equal. symmetry. apply nth_error_None. rewrite names_ents, map_length, E, app_nil_r. auto.
  - destruct (iv_head_notin h f q I L) as (_ & NT & _).
    destruct (Nat.eqb_spec m (u_tail (qq h q))) as [C|_]; [exfalso; apply NT; rewrite <- C, E; apply in_or_app; cbn; auto|].
    destruct (Z.eqb_spec (Z.of_nat (length a)) (Z.of_nat n)) as [C|C].
    + apply Nat2Z.inj in C. subst n. f_equal. rewrite names_ents, E, map_app. rewrite nth_error_app2; rewrite map_length; [|auto]. rewrite Nat.sub_diag. cbn.
      assert (IM : In m (f q)) by (rewrite E; apply in_or_app; cbn; auto). destruct (iv_comp _ _ I q m L IM) as [c CM]. unfold comp_of. rewrite CM. reflexivity.
    + rewrite (sc_in h f q a m b I L E). cbn [rbind].
      replace (Z.of_nat (length a) + 1)%Z with (Z.of_nat (length (a ++ [m]))) by (rewrite app_length; cbn; lia).
      apply IH; [rewrite E, <- app_assoc; reflexivity|cbn in Lt; lia|rewrite app_length; cbn; lia].
Qed.
Lemma get_ok : forall h f q i, Inv h f -> (q < nq h)%nat -> q_get q i h = match nth_z i (ents h (f q)) with Some c => Rok (Some c) | None => Rer EIndex end.
Proof.
  intros h f q i I L. unfold q_get, nth_z. cbv zeta. rewrite len_ents, (iv_len _ _ I q L).
  set (k := if (i <? 0)%Z then (i + Z.of_nat (length (f q)))%Z else i).
  destruct (k <? 0)%Z eqn:K; [reflexivity|]. cbn [orb]. apply Z.ltb_ge in K. destruct (Z.of_nat (length (f q)) <=? k)%Z eqn:K2.
  - apply Z.leb_le in K2. assert (X : nth_error (names (ents h (f q))) (Z.to_nat k) = None) by (apply nth_error_None; rewrite names_ents, map_length; lia). rewrite X. reflexivity.
  - apply Z.leb_gt in K2. rewrite (sc_head h f q I L). cbn [rbind].
    assert (N := nth_from_ok h f q I L (f q) [] (S (nm h)) (Z.to_nat k) eq_refl). rewrite Z2Nat.id in N by auto. cbn [length Z.of_nat] in N.
    rewrite N; [|pose proof (iv_length h f q I L); lia|lia].
    destruct (nth_error (names (ents h (f q))) (Z.to_nat k)) eqn:X; [reflexivity|]. exfalso. apply nth_error_None in X. rewrite names_ents, map_length in X. lia.
Qed.
Lemma head_ok : forall h f q, Inv h f -> (q < nq h)%nat -> q_head q h = Rok (hd_error (names (ents h (f q)))).
Proof.
  intros h f q I L. unfold q_head. rewrite (sc_head h f q I L). cbn [rbind]. f_equal. destruct (f q) as [|m l] eqn:E; cbn; [apply (iv_end _ _ I q L)|].
  destruct (iv_comp _ _ I q m L) as [c C]; [rewrite E; cbn; auto|]. unfold comp_of. rewrite C. reflexivity.
Qed.
Definition last_error (l : list nat) : option nat := last (map Some l) None.
Lemma tail_ok : forall h f q, Inv h f -> (q < nq h)%nat -> q_tail q h = Rok (last_error (names (ents h (f q)))).
Proof.
  intros h f q I L. unfold q_tail. rewrite (pd_tail h f q I L). cbn [rbind]. f_equal. rewrite names_ents. unfold last_error, lst_or. rewrite map_map.
  assert (G : forall l, (forall m, In m l -> In m (f q)) -> m_comp (mm h (last l (u_head (qq h q)))) = last (map (fun x => Some (comp_of h x)) l) None).
  { induction l as [|m l IH]; intro S; cbn; [apply (iv_end _ _ I q L)|]. destruct l as [|m' l].
    - cbn. destruct (iv_comp _ _ I q m L) as [c C]; [apply S; cbn; auto|]. unfold comp_of. rewrite C. reflexivity.
    - cbn [map] in *. apply IH. intros x X. apply S. cbn in *. tauto. }
  apply G. auto.
Qed.

Lemma pop_good : forall h f q io, Inv h f -> (q < nq h)%nat -> good (QPop q io) h f q.
Proof.
  intros h f q io I L. unfold good, good_as. cbn [qexec]. unfold pop, hbind, rd. destruct io as [i|].
  - rewrite (get_ok h f q i I L). cbn [on_queue]. destruct (nth_z i (ents h (f q))) as [c|] eqn:N.
    + assert (IN : is_in c (ents h (f q)) = true).
      { apply is_in_iff. unfold nth_z in N. destruct (_ <? 0)%Z in N; [discriminate|]. eapply nth_error_In. exact N. }
      destruct (del_ok h f q c I L) as (h' & f' & r & E & O & R & F). rewrite E, R, IN.
      exists false, h', f', (Rok (Some c)). cbn. split; auto. split; auto. split; auto. discriminate.
    + exists true, h, f, (Rer EIndex). cbn. split; auto. split; [now apply only_refl|]. auto.
  - rewrite (head_ok h f q I L). cbn [on_queue]. destruct (ents h (f q)) as [|e t] eqn:V.
    + cbn. exists true, h, f, (Rok None). split; auto. cbn. split; [rewrite <- V; now apply only_refl|]. auto.
    + cbn [names map hd_error]. assert (IN : is_in (fst e) (ents h (f q)) = true) by (rewrite V; apply is_in_iff; cbn; auto).
      destruct (del_ok h f q (fst e) I L) as (h' & f' & r & E & O & R & F). rewrite E, R, IN.
      exists false, h', f', (Rok (Some (fst e))). cbn. split; auto. split; [|split; [auto|discriminate]].
      rewrite V in O. rewrite drop_cons, Nat.eqb_refl in O.
      assert (NI : ~ In (fst e) (names t)) by (pose proof (nodup_view h f q I) as ND; rewrite V in ND; cbn in ND; inversion ND; auto).
      assert (D : forall l, ~ In (fst e) (names l) -> drop (fst e) l = l).
      { induction l as [|x l IH]; intro X; [reflexivity|]. rewrite drop_cons. destruct (Nat.eqb_spec (fst e) (fst x)) as [C|_]; [exfalso; apply X; cbn; auto|]. rewrite IH; auto. intro C. apply X. cbn. auto. }
      rewrite (D t NI) in O. exact O.
Qed.
Lemma clear_from_ok : forall q b fuel h f, Inv h f -> (q < nq h)%nat -> f q = b -> (length b < fuel)%nat ->
  exists h' f', clear_from fuel q (fst_or b (u_tail (qq h q))) h = (h', Rok tt) /\ only false h h' f f' q [].
Proof.
  intros q. induction b as [|m b IH]; intros fuel h f I L E Lt; (destruct fuel as [|fuel]; [lia|]); cbn [clear_from fst_or].
  - unfold hbind, rd. rewrite Nat.eqb_refl. exists h, f. split; [reflexivity|]. pose proof (only_refl false h f q I) as O. rewrite E in O. exact O.
  - unfold hbind at 1, rd at 1. destruct (iv_head_notin h f q I L) as (_ & NT & _).
    destruct (Nat.eqb_spec m (u_tail (qq h q))) as [C|_]; [exfalso; apply NT; rewrite <- C, E; cbn; auto|].
    unfold hbind, rd. assert (E' : f q = [] ++ m :: b) by auto. rewrite (sc_in h f q [] m b I L E').
    destruct (iv_comp _ _ I q m L) as [c CM]; [rewrite E; cbn; auto|]. rewrite CM.
    destruct (leave_ok h f q [] m b c I L E' CM) as (h1 & X & LF & I1). rewrite X. cbn [app] in I1.
    destruct (IH fuel h1 (upd f q b)) as (h' & f' & Y & O).
    + auto.
    + destruct LF. lia.
    + apply upd_same.
    + cbn in Lt. lia.
    + assert (T : u_tail (qq h1 q) = u_tail (qq h q)) by (destruct LF; rewrite lf_q; reflexivity). rewrite T in Y. unfold hbind, rd in Y. rewrite Y.
      exists h', f'. split; auto. eapply only_trans; [|exact O].
      destruct (del_ok h f q c I L) as (h1' & f1' & r & E1 & O1 & _). rewrite X in E1. inversion E1; subst h1' r. clear E1.
      assert (FF : forall q', f1' q' = upd f q b q') by (apply (iv_fun h1); auto; apply O1).
      destruct O1. constructor; eauto.
      * apply ps_one. apply (pr_out h f h1 q [] m b c); auto.
      * intros q' N. rewrite <- FF. apply on_o0. auto.
      * intros q' N. now apply upd_diff.
      * intros x IX. rewrite <- FF in IX. apply (on_g0 x IX).
Qed.
Lemma clear_good : forall h f q, Inv h f -> (q < nq h)%nat -> good (QClear q) h f q.
Proof.
  intros h f q I L. destruct (clear_from_ok q (f q) (S (nm h)) h f I L eq_refl) as (h' & f' & E & O).
  - pose proof (iv_length h f q I L). lia.
  - exists false, h', f', (Rok None). split; [|split; [exact O|split; [reflexivity|discriminate]]].
    cbn [qexec]. unfold unit_, clear, hbind at 1 2, rd. unfold hbind at 1. rewrite (sc_head h f q I L), E. reflexivity.
Qed.
Lemma unit_eq : forall m h, unit_ m h = match m h with (h1, Rok _) => (h1, Rok None) | (h1, Rer e) => (h1, Rer e) end.
Proof. intros m h. unfold unit_, hbind, hret. destruct (m h) as [h1 [u|e]]; reflexivity. Qed.
Lemma extend_cons : forall q c l h, extend q (c :: l) h = if q_contains c q h then extend q l h else match enter c q None h with (h1, Rok _) => extend q l h1 | (h1, Rer e) => (h1, Rer e) end.
Proof. intros q c l h. unfold extend. cbn [hfor]. unfold hbind, rd, hret. destruct (q_contains c q h); reflexivity. Qed.
Lemma extend_good : forall q l h f, Inv h f -> (q < nq h)%nat -> exists h' f' r, qexec (QExtend q l) h = (h', r) /\
  only true h h' f f' q (fst (on_queue (QExtend q l) (u_cap (qq h q)) (ents h (f q)))) /\ r = snd (on_queue (QExtend q l) (u_cap (qq h q)) (ents h (f q))).
Proof.
  intros q l. induction l as [|c l IH]; intros h f I L.
  - exists h, f, (Rok None). split; [reflexivity|]. cbn. split; [now apply only_refl|]. auto.
  - cbn [on_queue add_all qexec]. rewrite unit_eq, extend_cons.
    assert (QC : q_contains c q h = is_in c (ents h (f q))) by (rewrite (in_view h f q c I L); reflexivity). rewrite QC.
    destruct (is_in c (ents h (f q))) eqn:IN.
    + destruct (IH h f I L) as (h' & f' & r & E & O & R). exists h', f', r. cbn [qexec on_queue] in *. rewrite unit_eq in E. split; [auto|split; [auto|auto]].
    + destruct (enter_good h f q c None I L) as (h1 & f1 & r1 & E1 & O1 & R1 & F1). cbn [on_queue qexec] in *. unfold add in *. rewrite IN in *. rewrite unit_eq in E1.
      destruct (enter c q None h) as [h1' r1'] eqn:EN.
      destruct (is_full (u_cap (qq h q)) (ents h (f q))) eqn:FU; cbn [fst snd] in *; subst r1; destruct r1' as [u|e]; inversion E1; subst.
      * exists h1, f1, (Rer EFull). split; [reflexivity|]. split; auto.
      * assert (L1 : (q < nq h1)%nat) by (destruct O1; lia).
        destruct (IH h1 f1 (on_inv _ _ _ _ _ _ _ O1) L1) as (h' & f' & r & E & O & R). exists h', f', r. cbn [qexec on_queue] in *. rewrite unit_eq in E.
        assert (V : ents h1 (f1 q) = ents h (f q) ++ [(c, prio_last (ents h (f q)))]).
        { destruct O1. rewrite on_q0. unfold put. rewrite skipn_len, firstn_all. reflexivity. }
        assert (CP : u_cap (qq h1 q) = u_cap (qq h q)) by apply O1.
        rewrite V, CP in O, R. split; [auto|split; [eapply only_trans; eauto|auto]].
Qed.

(** *** the other operations *)
(** no queue is both entered and left *)
Definition tidy (f f' : nat -> list nat) : Prop := forall q, (forall m, In m (f q) -> In m (f' q)) \/ (forall m, In m (f' q) -> In m (f q)).
Definition fine (o : qop) (h : heap) (f : nat -> list nat) : Prop :=
  exists h' f' r, qexec o h = (h', r) /\ (prims h f h' f' /\ tidy f f') /\ same (abs h') (fst (spec o (abs h))) /\ r = snd (spec o (abs h)).

Lemma only_tidy : forall g h h' f f' q L, only g h h' f f' q L -> tidy f f'.
Proof.
  intros g h h' f f' q L O q'. destruct O. destruct (Nat.eq_dec q' q) as [->|N]; [|rewrite on_f0 by auto; auto]. destruct g; [left|right]; exact on_g0.
Qed.
Lemma good_fine : forall o h f q, Inv h f -> (q < nq h)%nat -> queue_of o = Some q -> good o h f q -> fine o h f.
Proof.
  intros o h f q I L Q (g & h' & f' & r & E & O & R & _). exists h', f', r. split; auto. split; [split; [apply O|exact (only_tidy _ _ _ _ _ _ _ O)]|]. unfold spec. rewrite Q.
  rewrite (abs_l h f q I L). change (p_cap (abs h) q) with (u_cap (qq h q)).
  destruct (on_queue o (u_cap (qq h q)) (ents h (f q))) as [L' r'] eqn:X. cbn [fst snd] in *. split; auto. apply (only_same g h h' f f' q L' I O).
Qed.

(** leave() *)
Lemma leave_all_ok : forall c l h f, Inv h f -> NoDup l -> (forall q, In q l -> (q < nq h)%nat /\ is_in c (ents h (f q)) = true) -> (forall q, ~ In q l -> is_in c (ents h (f q)) = false) ->
  exists h' f', hfor l (leave c) h = (h', Rok tt) /\ prims h f h' f' /\ nq h' = nq h /\ (forall q, u_cap (qq h' q) = u_cap (qq h q)) /\ (forall q, ents h' (f' q) = drop c (ents h (f q))) /\ forall q m, In m (f' q) -> In m (f q).
Proof.
  intros c l. induction l as [|q l IH]; intros h f I ND A B.
  - exists h, f. split; [reflexivity|]. split; [now apply ps_refl|]. split; auto. split; auto. split; auto. intro q. specialize (B q (fun x => x)). apply is_in_false in B. symmetry. revert B. generalize (ents h (f q)).
    induction l as [|x l IH]; intro X; [reflexivity|]. rewrite drop_cons. destruct (Nat.eqb_spec c (fst x)) as [C|_]; [exfalso; apply X; cbn; auto|]. rewrite IH; auto. intro C. apply X. cbn. auto.
  - inversion ND; subst. destruct (A q (or_introl eq_refl)) as [L IN]. destruct (del_ok h f q c I L) as (h1 & f1 & r & E & O & R & _). rewrite IN in R. subst r.
    assert (DD : is_in c (drop c (ents h (f q))) = false).
    { apply is_in_false. unfold names, drop. rewrite in_map_iff. intros (e & X & Y). apply filter_In in Y. destruct Y as [_ Y]. rewrite X, Nat.eqb_refl in Y. discriminate. }
    destruct (IH h1 f1) as (h' & f' & E' & P' & N' & C' & V' & K').
    + apply O.
    + auto.
    + intros q' Q'. destruct (A q' (or_intror Q')) as [L' I']. destruct O. rewrite on_nq0. split; auto. rewrite on_o0; auto. intros ->. auto.
    + intros q' Q'. destruct O. destruct (Nat.eq_dec q' q) as [->|N]; [rewrite on_q0; auto|]. rewrite on_o0 by auto. apply B. cbn. intuition.
    + exists h', f'. cbn [hfor]. unfold hbind. rewrite E, E'. split; auto. destruct O. split; [eapply ps_trans; eauto|]. split; [congruence|]. split; [intro q'; rewrite C'; auto|].
      split; [|intros q' m M; apply K' in M; destruct (Nat.eq_dec q' q) as [->|N]; [apply (on_g0 m M)|rewrite <- on_f0; auto]].
      intro q'. rewrite V'. destruct (Nat.eq_dec q' q) as [->|N]; [|rewrite on_o0; auto]. rewrite on_q0.
      unfold drop. clear. induction (ents h (f q)) as [|e l IH]; cbn; auto. destruct (Nat.eqb c (fst e)) eqn:X; cbn; auto. rewrite X. cbn. now rewrite IH.
Qed.
Lemma leave_all_fine : forall h f c, Inv h f -> fine (QLeaveAll c) h f.
Proof.
  intros h f c I.
  destruct (leave_all_ok c (keys (mb h c)) h f I (iv_keys _ _ I c)) as (h' & f' & E & P & N & C & V & K).
  - intros q Q. apply alookup_ex in Q. destruct Q as [m M]. assert (M' : member c q h = Some m) by exact M. assert (M'' := M'). apply (iv_mb _ _ I) in M'. destruct M' as (L & _).
    split; auto. rewrite (in_view h f q c I L), M''. reflexivity.
  - intros q Q. apply alookup_None in Q. destruct (le_lt_dec (nq h) q) as [L|L]; [rewrite (iv_nil _ _ I q L); reflexivity|]. rewrite (in_view h f q c I L). unfold member. rewrite Q. reflexivity.
  - exists h', f', (Rok None). split; [|split; [split; [auto|intro q; right; apply K]|split; [|reflexivity]]].
    + cbn [qexec]. rewrite unit_eq. unfold leave_all, hbind, rd. rewrite E. reflexivity.
    + split; [exact N|]. intros q Lq. cbn in Lq. split; [apply C|]. destruct (prims_inv _ _ _ _ P) as [_ I']. rewrite (abs_l h' f' q I' Lq). cbn [fst spec queue_of p_l]. rewrite V. f_equal. symmetry. apply (abs_l h f q I). lia.
Qed.

(** new queues *)
Record made (h h' : heap) (f f' : nat -> list nat) (cap : xq) (L : list entry) : Prop := {
  md_inv : Inv h' f'; md_prims : prims h f h' f'; md_nq : nq h' = S (nq h); md_cap : forall q, (q < nq h)%nat -> u_cap (qq h' q) = u_cap (qq h q); md_ncap : u_cap (qq h' (nq h)) = cap;
  md_q : ents h' (f' (nq h)) = L; md_o : forall q, (q < nq h)%nat -> ents h' (f' q) = ents h (f q);
  md_f : forall q, (q < nq h)%nat -> f' q = f q;
  md_old : forall m, (m < nm h)%nat -> m_comp (mm h' m) = m_comp (mm h m) /\ m_prio (mm h' m) = m_prio (mm h m); md_nm : (nm h <= nm h')%nat
}.
Lemma made_same : forall h h' f f' cap L, Inv h f -> made h h' f f' cap L -> same (abs h') (p_new (abs h) cap L).
Proof.
  intros h h' f f' cap L I M. destruct M. split; [exact md_nq0|]. intros q Lq. cbn in Lq. cbn [p_new p_cap p_l]. rewrite (abs_l h' f' q md_inv0 Lq).
  destruct (Nat.eq_dec q (nq h)) as [->|N].
  - cbn [p_n abs]. rewrite !upd_same. cbn. auto.
  - assert (L' : (q < nq h)%nat) by lia. cbn [p_n abs]. rewrite !upd_diff by auto. cbn [p_cap abs]. rewrite (abs_l h f q I L'). split; auto.
Qed.
Lemma made_tidy : forall h h' f f' cap L, Inv h f -> made h h' f f' cap L -> prims h f h' f' /\ tidy f f'.
Proof.
  intros h h' f f' cap L I M. destruct M. split; auto. intro q. left. intros m IM. rewrite md_f0; auto. apply (iv_q_lt _ _ _ _ I IM).
Qed.
Lemma new_made : forall h f cap, Inv h f -> exists h', new_queue cap h = (h', Rok (nq h)) /\ made h h' f (upd f (nq h) []) cap [].
Proof.
  intros h f cap I. exists (fst (new_queue cap h)). split; [reflexivity|]. pose proof (new_inv h f cap I) as I'.
  assert (OM : forall m, (m < nm h)%nat -> m_comp (mm (fst (new_queue cap h)) m) = m_comp (mm h m) /\ m_prio (mm (fst (new_queue cap h)) m) = m_prio (mm h m)) by (intros m Lm; cbn; rewrite !upd_diff by lia; auto).
  constructor; auto.
  - apply ps_one. apply pr_new. auto.
  - intros q Lq. cbn. rewrite upd_diff by lia. reflexivity.
  - cbn. rewrite upd_same. reflexivity.
  - rewrite upd_same. reflexivity.
  - intros q Lq. rewrite upd_diff by lia. apply ents_ext. intros m IM. apply OM. apply (iv_in_lt _ _ _ _ I Lq IM).
  - intros q Lq. rewrite upd_diff by lia. reflexivity.
  - cbn. lia.
Qed.
Definition sel (h : heap) (keep : nat -> bool) (prio : bool) (l : list nat) : list entry :=
  filter (fun e => keep (fst e)) (map (fun m => (comp_of h m, if prio then m_prio (mm h m) else Fin 0)) l).
Lemma sel_cons : forall h keep prio m l, sel h keep prio (m :: l) = if keep (comp_of h m) then (comp_of h m, if prio then m_prio (mm h m) else Fin 0) :: sel h keep prio l else sel h keep prio l.
Proof. reflexivity. Qed.
Lemma sel_ext : forall h h' keep prio l, (forall m, In m l -> m_comp (mm h' m) = m_comp (mm h m) /\ m_prio (mm h' m) = m_prio (mm h m)) -> sel h' keep prio l = sel h keep prio l.
Proof.
  intros h h' keep prio l E. unfold sel. f_equal. apply map_ext_in. intros m IM. unfold comp_of. destruct (E m IM) as [-> ->]. reflexivity.
Qed.
Lemma copy_ok : forall q1 keep prio l h f, Inv h f -> (q1 < nq h)%nat -> (forall m, In m l -> (m < nm h)%nat) -> NoDup (names (ents h (f q1) ++ sel h keep prio l)) ->
  exists h' f' r, copy_to q1 keep prio l h = (h', r) /\ only true h h' f f' q1 (fst (fits_from (u_cap (qq h q1)) (sel h keep prio l) (ents h (f q1)))) /\
    r = match snd (fits_from (u_cap (qq h q1)) (sel h keep prio l) (ents h (f q1))) with Rok _ => Rok tt | Rer e => Rer e end /\
    (forall m, (m < nm h)%nat -> m_comp (mm h' m) = m_comp (mm h m) /\ m_prio (mm h' m) = m_prio (mm h m)) /\ (nm h <= nm h')%nat /\ (forall q, q <> q1 -> f' q = f q).
Proof.
  intros q1 keep prio l. induction l as [|m l IH]; intros h f I L LM ND.
  - exists h, f, (Rok tt). cbn. split; [reflexivity|]. split; [now apply only_refl|]. auto.
  - rewrite sel_cons in *. unfold copy_to. cbn [hfor]. fold (copy_to q1 keep prio l).
    set (c := comp_of h m) in *. set (p := if prio then m_prio (mm h m) else Fin 0) in *.
    assert (X : forall h1 r1, (c0 <- rd (fun h0 => Rok (comp_of h0 m)); (if keep c0 then p0 <- rd (fun h0 => Rok (if prio then m_prio (mm h0 m) else Fin 0)); t <- rd (fun h0 => Rok (u_tail (qq h0 q1))); insert_in_front_of t c0 q1 p0 else hret tt)) h = (h1, r1) ->
      ((c0 <- rd (fun h0 => Rok (comp_of h0 m)); (if keep c0 then p0 <- rd (fun h0 => Rok (if prio then m_prio (mm h0 m) else Fin 0)); t <- rd (fun h0 => Rok (u_tail (qq h0 q1))); insert_in_front_of t c0 q1 p0 else hret tt)) ;; copy_to q1 keep prio l) h = match r1 with Rok _ => copy_to q1 keep prio l h1 | Rer e => (h1, Rer e) end).
    { intros h1 r1 E. unfold hbind at 1. rewrite E. destruct r1; reflexivity. }
    destruct (keep c) eqn:K.
    + assert (NI : is_in c (ents h (f q1)) = false).
      { apply is_in_false. intro C. unfold names in ND. rewrite map_app in ND. apply nodup_app in ND. destruct ND as (_ & _ & D). apply (D c C). cbn. auto. }
      destruct (put_ok h f q1 c (length (f q1)) p I L NI) as (h1 & f1 & r1 & E & O & R & _). rewrite skipn_len in E. cbn [fst_or] in E.
      cbn [fits_from].
      assert (ST : (c0 <- rd (fun h0 => Rok (comp_of h0 m)); (if keep c0 then p0 <- rd (fun h0 => Rok (if prio then m_prio (mm h0 m) else Fin 0)); t <- rd (fun h0 => Rok (u_tail (qq h0 q1))); insert_in_front_of t c0 q1 p0 else hret tt)) h = (h1, r1)).
      { unfold hbind, rd. fold c. rewrite K. fold p. exact E. }
      rewrite (X h1 r1 ST).
      destruct (is_full (u_cap (qq h q1)) (ents h (f q1))) eqn:FU; subst r1.
      * rewrite insert_full in E by (rewrite (room_full h f q1 I L); auto). inversion E; subst h1. exists h, f1, (Rer EFull). split; auto. split; auto. split; auto. split; auto. split; auto.
        intros q N. apply (iv_fun h); auto. apply O.
      * assert (SP : f q1 = f q1 ++ []) by (now rewrite app_nil_r).
        assert (MB : member c q1 h = None) by (rewrite (in_view h f q1 c I L) in NI; destruct (member c q1 h); [discriminate|auto]).
        destruct (insert_ok h f q1 (f q1) [] c p I L SP MB) as (h1' & E' & INS & I1'); [rewrite (room_full h f q1 I L); auto|]. cbn [fst_or] in E'. rewrite E in E'. inversion E'; subst h1'. clear E'.
        assert (F1 : forall q, q <> q1 -> f1 q = f q). { intros q N. rewrite (iv_fun h1 f1 (upd f q1 (f q1 ++ [nm h])) (on_inv _ _ _ _ _ _ _ O) I1' q). now apply upd_diff. }
        assert (V1 : ents h1 (f1 q1) = ents h (f q1) ++ [(c, p)]). { destruct O. rewrite on_q0. unfold put. rewrite <- (len_ents h), skipn_len, firstn_all. reflexivity. }
        assert (OLD : forall m, (m < nm h)%nat -> m_comp (mm h1 m) = m_comp (mm h m) /\ m_prio (mm h1 m) = m_prio (mm h m)).
        { intros m' L'. destruct INS. destruct (in_old m') as (-> & -> & _); [lia|]. auto. }
        assert (S1 : sel h1 keep prio l = sel h keep prio l) by (apply sel_ext; intros m' M'; apply OLD; apply LM; cbn; auto).
        destruct (IH h1 f1) as (h' & f' & r & E' & O' & R' & P' & N' & Q').
        -- apply O.
        -- destruct O. lia.
        -- intros m' M'. destruct INS. rewrite in_nm. specialize (LM m' (or_intror M')). lia.
        -- rewrite V1, S1, <- app_assoc. exact ND.
        -- rewrite V1, S1 in O', R'. assert (CP : u_cap (qq h1 q1) = u_cap (qq h q1)) by apply O. rewrite CP in O', R'.
           assert (NM : nm h1 = S (nm h)) by apply INS.
           exists h', f', r. split; auto. split; [eapply only_trans; eauto|]. split; auto. split; [|split; [lia|intros q N; rewrite Q', F1; auto]].
           intros m' L'. destruct (OLD m' L') as [<- <-]. apply P'. lia.
    + rewrite (X h (Rok tt)) by (unfold hbind, rd; fold c; rewrite K; reflexivity).
      apply (IH h f I L); auto. intros m' M'. apply LM. cbn. auto.
Qed.
Lemma fits_inf : forall L acc, fits_from PInf L acc = (acc ++ L, Rok None).
Proof. induction L as [|e L IH]; intro acc; cbn; [now rewrite app_nil_r|]. rewrite IH, <- app_assoc. reflexivity. Qed.
Lemma sel_true : forall h l, sel h (fun _ => true) true l = ents h l.
Proof. intros h l. unfold sel. change (map _ l) with (ents h l). induction (ents h l) as [|e t IH]; cbn; auto. now rewrite IH. Qed.
Lemma sel_zero : forall h keep l, sel h keep false l = filter (fun e => keep (fst e)) (zero (ents h l)).
Proof. intros. unfold sel, zero, ents. rewrite map_map. reflexivity. Qed.
Lemma sel_prio : forall h keep l, sel h keep true l = filter (fun e => keep (fst e)) (ents h l).
Proof. reflexivity. Qed.
Lemma names_sel : forall h keep prio l, names (sel h keep prio l) = filter keep (names (ents h l)).
Proof.
  intros h keep prio l. unfold sel, names, ents. rewrite map_map. cbn. induction l as [|m l IH]; cbn; auto. destruct (keep (comp_of h m)); cbn; rewrite IH; auto.
Qed.
Lemma nodup_filter : forall (A : Type) g (l : list A), NoDup l -> NoDup (filter g l).
Proof. intros A g l N. induction N as [|x l NI N IH]; cbn; [constructor|]. destruct (g x); auto. constructor; auto. rewrite filter_In. tauto. Qed.
(** one copying round into the queue just made *)
Lemma made_copy : forall h h1 f f1 cap L a keep prio, Inv h f -> made h h1 f f1 cap L -> (a < nq h)%nat ->
  NoDup (names (L ++ sel h keep prio (f a))) ->
  members a h1 = Rok (f a) /\
  exists h2 f2 r, copy_to (nq h) keep prio (f a) h1 = (h2, r) /\ made h h2 f f2 cap (fst (fits_from cap (sel h keep prio (f a)) L)) /\
    r = match snd (fits_from cap (sel h keep prio (f a)) L) with Rok _ => Rok tt | Rer e => Rer e end.
Proof.
  intros h h1 f f1 cap L a keep prio I M La ND. destruct M.
  split; [rewrite (members_ok h1 f1 a); [rewrite md_f0; auto|auto|lia]|].
  assert (LM : forall m, In m (f a) -> (m < nm h)%nat) by (intros m IM; apply (iv_in_lt _ _ _ _ I La IM)).
  assert (S1 : sel h1 keep prio (f a) = sel h keep prio (f a)) by (apply sel_ext; intros m IM; apply md_old0; auto).
  destruct (copy_ok (nq h) keep prio (f a) h1 f1) as (h2 & f2 & r & E & O & R & P & N & Q).
  - auto.
  - lia.
  - intros m IM. specialize (LM m IM). lia.
  - rewrite md_q0, S1. exact ND.
  - exists h2, f2, r. rewrite md_q0, S1, md_ncap0 in *. split; auto. split; auto. destruct O. constructor; auto.
    + eapply ps_trans; eauto.
    + lia.
    + intros q Lq. rewrite on_cap0. auto.
    + rewrite on_cap0. auto.
    + intros q Lq. rewrite on_o0 by lia. auto.
    + intros q Lq. rewrite Q by lia. auto.
    + intros m Lm. destruct (md_old0 m Lm) as [<- <-]. apply P. lia.
    + lia.
Qed.
Lemma comps_ok : forall h h1 f f1 cap L a, Inv h f -> made h h1 f f1 cap L -> (a < nq h)%nat -> comps a h1 = Rok (names (ents h (f a))).
Proof.
  intros h h1 f f1 cap L a I M La. destruct M. unfold comps. rewrite (members_ok h1 f1 a); [|auto|lia]. cbn [rbind]. rewrite <- names_ents. f_equal. f_equal. rewrite md_o0; auto.
Qed.
Lemma some_eq : forall m h, some_ m h = match m h with (h1, Rok x) => (h1, Rok (Some x)) | (h1, Rer e) => (h1, Rer e) end.
Proof. intros m h. unfold some_, hbind, hret. destruct (m h) as [h1 [u|e]]; reflexivity. Qed.
Lemma names_filter : forall (g : nat -> bool) L, names (filter (fun e => g (fst e)) L) = filter g (names L).
Proof. intros g L. unfold names. induction L as [|e L IH]; cbn; auto. destruct (g (fst e)); cbn; rewrite IH; auto. Qed.
Lemma names_zero : forall L, names (zero L) = names L.
Proof. intro L. unfold names, zero. rewrite map_map. reflexivity. Qed.
Lemma filter_names_ext : forall (g g' : nat -> bool) L, (forall c, In c (names L) -> g c = g' c) -> filter (fun e => g (fst e)) L = filter (fun e : entry => g' (fst e)) L.
Proof. intros g g' L E. apply filter_ext_in. intros e IE. apply E. now apply in_map. Qed.
Lemma zero_all : forall L : list entry, filter (fun e => (fun _ : nat => true) (fst e)) L = L.
Proof. induction L as [|e L IH]; cbn; auto. now rewrite IH. Qed.

Lemma union_fine : forall h f a b, Inv h f -> (a < nq h)%nat -> (b < nq h)%nat -> fine (QUnion a b) h f.
Proof.
  intros h f a b I La Lb. destruct (new_made h f PInf I) as (h1 & E1 & M1).
  pose proof (nodup_view h f a I) as Na. pose proof (nodup_view h f b I) as Nb.
  destruct (made_copy _ _ _ _ _ _ a (fun _ => true) false I M1 La) as (ME1 & h2 & f2 & r2 & E2 & M2 & R2).
  { cbn [app]. rewrite names_sel. apply nodup_filter. auto. }
  rewrite fits_inf in M2, R2. cbn [fst snd app] in M2, R2. subst r2. rewrite sel_zero, zero_all in M2.
  destruct (made_copy _ _ _ _ _ _ b (fun c => negb (memb c (names (ents h (f a))))) false I M2 Lb) as (ME2 & h3 & f3 & r3 & E3 & M3 & R3).
  { unfold names. rewrite map_app. fold (names (zero (ents h (f a)))). rewrite names_zero. match goal with |- NoDup (_ ++ map fst ?x) => change (map fst x) with (names x) end. rewrite names_sel. apply nodup_app. split; auto. split; [apply nodup_filter; auto|].
    intros z Z1 Z2. apply filter_In in Z2. destruct Z2 as [_ Z2]. cbv beta in Z2. apply memb_iff in Z1. unfold names in *. rewrite Z1 in Z2. discriminate. }
  rewrite fits_inf in M3, R3. cbn [fst snd] in M3, R3. subst r3.
  exists h3, f3, (Rok (Some (nq h))). split; [|split; [apply (made_tidy _ _ _ _ _ _ I M3)|]].
  - cbn [qexec]. rewrite some_eq. unfold union, hbind, rd. rewrite E1. rewrite (comps_ok _ _ _ _ _ _ a I M1 La), ME1, E2, ME2, E3. reflexivity.
  - cbn [spec queue_of fst snd]. rewrite (abs_l h f a I La), (abs_l h f b I Lb). split; [|reflexivity]. pose proof (made_same _ _ _ _ _ _ I M3) as S. rewrite sel_zero in S. exact S.
Qed.
Lemma inter_fine : forall h f a b, Inv h f -> (a < nq h)%nat -> (b < nq h)%nat -> fine (QInter a b) h f.
Proof.
  intros h f a b I La Lb. destruct (new_made h f PInf I) as (h1 & E1 & M1). pose proof (nodup_view h f a I) as Na.
  destruct (made_copy _ _ _ _ _ _ a (fun c => memb c (names (ents h (f b)))) false I M1 La) as (ME1 & h2 & f2 & r2 & E2 & M2 & R2).
  { cbn [app]. rewrite names_sel. apply nodup_filter. auto. }
  rewrite fits_inf in M2, R2. cbn [fst snd app] in M2, R2. subst r2. rewrite sel_zero in M2.
  exists h2, f2, (Rok (Some (nq h))). split; [|split; [apply (made_tidy _ _ _ _ _ _ I M2)|]].
  - cbn [qexec]. rewrite some_eq. unfold intersection, hbind, rd. rewrite E1. rewrite (comps_ok _ _ _ _ _ _ b I M1 Lb), ME1, E2. reflexivity.
  - cbn [spec queue_of fst snd]. rewrite (abs_l h f a I La), (abs_l h f b I Lb). split; [|reflexivity]. apply (made_same _ _ _ _ _ _ I M2).
Qed.
Lemma diff_fine : forall h f a b, Inv h f -> (a < nq h)%nat -> (b < nq h)%nat -> fine (QDiff a b) h f.
Proof.
  intros h f a b I La Lb. destruct (new_made h f PInf I) as (h1 & E1 & M1). pose proof (nodup_view h f a I) as Na.
  destruct (made_copy _ _ _ _ _ _ a (fun c => negb (memb c (names (ents h (f b))))) true I M1 La) as (ME1 & h2 & f2 & r2 & E2 & M2 & R2).
  { cbn [app]. rewrite names_sel. apply nodup_filter. auto. }
  rewrite fits_inf in M2, R2. cbn [fst snd app] in M2, R2. subst r2. rewrite sel_prio in M2.
  exists h2, f2, (Rok (Some (nq h))). split; [|split; [apply (made_tidy _ _ _ _ _ _ I M2)|]].
  - cbn [qexec]. rewrite some_eq. unfold difference, hbind, rd. rewrite E1. rewrite (comps_ok _ _ _ _ _ _ b I M1 Lb), ME1, E2. reflexivity.
  - cbn [spec queue_of fst snd]. rewrite (abs_l h f a I La), (abs_l h f b I Lb). split; [|reflexivity]. apply (made_same _ _ _ _ _ _ I M2).
Qed.
Lemma sym_fine : forall h f a b, Inv h f -> (a < nq h)%nat -> (b < nq h)%nat -> fine (QSym a b) h f.
Proof.
  intros h f a b I La Lb. destruct (new_made h f PInf I) as (h1 & E1 & M1).
  pose proof (nodup_view h f a I) as Na. pose proof (nodup_view h f b I) as Nb.
  set (A := names (ents h (f a))) in *. set (B := names (ents h (f b))) in *.
  destruct (made_copy _ _ _ _ _ _ a (fun c => negb (memb c A && memb c B)) false I M1 La) as (ME1 & h2 & f2 & r2 & E2 & M2 & R2).
  { cbn [app]. rewrite names_sel. apply nodup_filter. auto. }
  rewrite fits_inf in M2, R2. cbn [fst snd app] in M2, R2. subst r2.
  destruct (made_copy _ _ _ _ _ _ b (fun c => negb (memb c A && memb c B)) false I M2 Lb) as (ME2 & h3 & f3 & r3 & E3 & M3 & R3).
  { unfold names. rewrite map_app. match goal with |- NoDup (map fst ?y ++ map fst ?x) => change (map fst x) with (names x); change (map fst y) with (names y) end. rewrite !names_sel. fold A B. apply nodup_app.
    split; [apply nodup_filter; auto|]. split; [apply nodup_filter; auto|]. intros z Z1 Z2. apply filter_In in Z1. apply filter_In in Z2. destruct Z1 as [Z1 Z3]. destruct Z2 as [Z2 _].
    apply memb_iff in Z1. apply memb_iff in Z2. rewrite Z1, Z2 in Z3. discriminate. }
  rewrite fits_inf in M3, R3. cbn [fst snd] in M3, R3. subst r3. rewrite !sel_zero in M3.
  exists h3, f3, (Rok (Some (nq h))). split; [|split; [apply (made_tidy _ _ _ _ _ _ I M3)|]].
  - cbn [qexec]. rewrite some_eq. unfold symmetric_difference, hbind, rd. rewrite E1. rewrite (comps_ok _ _ _ _ _ _ a I M1 La), (comps_ok _ _ _ _ _ _ b I M1 Lb). fold A B. rewrite ME1, E2, ME2, E3. reflexivity.
  - cbn [spec queue_of fst snd]. rewrite (abs_l h f a I La), (abs_l h f b I Lb). split; [|reflexivity]. pose proof (made_same _ _ _ _ _ _ I M3) as S.
    rewrite (filter_names_ext (fun c => negb (memb c A && memb c B)) (fun c => negb (is_in c (ents h (f b)))) (zero (ents h (f a)))) in S.
    + rewrite (filter_names_ext (fun c => negb (memb c A && memb c B)) (fun c => negb (is_in c (ents h (f a)))) (zero (ents h (f b)))) in S; [exact S|].
      intros c C. rewrite names_zero in C. unfold is_in. fold A. fold B in C. apply memb_iff in C. rewrite C. now rewrite andb_true_r.
    + intros c C. rewrite names_zero in C. unfold is_in. fold B. fold A in C. apply memb_iff in C. rewrite C. reflexivity.
Qed.
Lemma copy_made : forall h f a k, Inv h f -> (a < nq h)%nat ->
  exists h' f', copy a k h = (h', match snd (if k then fits_n (u_cap (qq h a)) (ents h (f a)) else (ents h (f a), Rok None)) with Rok _ => Rok (nq h) | Rer e => Rer e end) /\
    made h h' f f' (if k then u_cap (qq h a) else PInf) (fst (if k then fits_n (u_cap (qq h a)) (ents h (f a)) else (ents h (f a), Rok None))).
Proof.
  intros h f a k I La. destruct (new_made h f PInf I) as (h1 & E1 & M1). pose proof (nodup_view h f a I) as Na.
  set (cap := if k then u_cap (qq h a) else PInf).
  set (h1' := if k then set_q (nq h) (w_cap (u_cap (qq h a))) h1 else h1).
  assert (M1' : made h h1' f (upd f (nq h) []) cap []).
  { unfold h1', cap. destruct k; auto. destruct M1. 
    assert (P : prim h1 (upd f (nq h) []) (set_q (nq h) (fun v => w_av (u_av v) (w_cap (u_cap (qq h a)) v)) h1) (upd f (nq h) [])) by (apply pr_cap; auto; lia).
    assert (EQ : set_q (nq h) (fun v => w_av (u_av v) (w_cap (u_cap (qq h a)) v)) h1 = set_q (nq h) (w_cap (u_cap (qq h a))) h1) by reflexivity.
    rewrite EQ in P. constructor; auto.
    - apply (prim_inv _ _ _ _ P).
    - eapply ps_step; eauto.
    - intros q Lq. cbn. rewrite upd_diff by lia. apply md_cap0. auto.
    - cbn. rewrite upd_same. reflexivity. }
  destruct (made_copy _ _ _ _ _ _ a (fun _ => true) true I M1' La) as (ME1 & h2 & f2 & r2 & E2 & M2 & R2).
  { cbn [app]. rewrite names_sel. apply nodup_filter. auto. }
  rewrite sel_true in M2, R2.
  assert (FF : fits_from cap (ents h (f a)) [] = if k then fits_n (u_cap (qq h a)) (ents h (f a)) else (ents h (f a), Rok None)).
  { unfold cap. destruct k; [reflexivity|]. rewrite fits_inf. reflexivity. }
  rewrite FF in M2, R2. exists h2, f2. split; auto. unfold copy, hbind. rewrite E1.
  assert (CP : (if k then k0 <- rd (fun h0 => Rok (u_cap (qq h0 a))) ; hput (set_q (nq h) (w_cap k0)) else hret tt) h1 = (h1', Rok tt)).
  { unfold h1'. destruct k; [|reflexivity]. unfold hbind, rd, hput. destruct M1. rewrite md_cap0; auto. }
  unfold hbind in CP. rewrite CP. unfold rd. rewrite ME1, E2. rewrite R2. destruct (snd _); reflexivity.
Qed.
Lemma copy_fine : forall h f a k, Inv h f -> (a < nq h)%nat -> fine (QCopy a k) h f.
Proof.
  intros h f a k I La. destruct (copy_made h f a k I La) as (h' & f' & E & M).
  unfold fine. cbn [qexec]. rewrite some_eq, E. cbn [spec queue_of]. rewrite (abs_l h f a I La). change (p_cap (abs h) a) with (u_cap (qq h a)).
  destruct (if k then fits_n (u_cap (qq h a)) (ents h (f a)) else (ents h (f a), Rok None)) as [L r] eqn:X. cbn [fst snd] in *.
  exists h', f'. destruct r as [x|e]; eexists; (split; [reflexivity|]); (split; [apply (made_tidy _ _ _ _ _ _ I M)|]); (split; [apply (made_same _ _ _ _ _ _ I M)|reflexivity]).
Qed.
Lemma move_fine : forall h f a k, Inv h f -> (a < nq h)%nat -> fine (QMove a k) h f.
Proof.
  intros h f a k I La. destruct (copy_made h f a k I La) as (h' & f' & E & M).
  unfold fine. cbn [qexec]. rewrite some_eq. unfold move, hbind. rewrite E. cbn [spec queue_of]. rewrite (abs_l h f a I La). change (p_cap (abs h) a) with (u_cap (qq h a)).
  destruct (if k then fits_n (u_cap (qq h a)) (ents h (f a)) else (ents h (f a), Rok None)) as [L r] eqn:X. cbn [fst snd] in *.
  pose proof (made_same _ _ _ _ _ _ I M) as S.
  destruct r as [x|e].
  - assert (La' : (a < nq h')%nat) by (destruct M; lia). assert (I' : Inv h' f') by apply M.
    destruct (clear_good h' f' a I' La') as (g2 & h2 & f2 & r2 & E2 & O2 & R2 & _). cbn [qexec on_queue fst snd] in *. rewrite unit_eq in E2.
    destruct (clear a h') as [h2' [u|e]] eqn:C; [|congruence]. inversion E2; subst h2'.
    exists h2, f2, (Rok (Some (nq h))). split; [reflexivity|]. split.
    { destruct M, O2. split; [eapply ps_trans; eauto|]. intro q. destruct (Nat.eq_dec q a) as [->|N].
      - right. intros m IM. specialize (on_g0 m). rewrite md_f0 in on_g0 by auto. destruct g2; [|auto]. pose proof (f_equal (@length _) on_q0) as X0. rewrite len_ents in X0. destruct (f2 a); [destruct IM|discriminate].
      - left. intros m IM. rewrite on_f0 by auto. rewrite md_f0; auto. apply (iv_q_lt _ _ _ _ I IM). } cbn [fst snd]. split; [|reflexivity].
    pose proof (only_same _ _ _ _ _ _ _ I' O2) as S2. destruct S as [S1 S3]. destruct S2 as [S4 S5]. split; [rewrite S4; cbn; cbn in S1; exact S1|].
    intros q Lq. destruct (S5 q Lq) as [-> ->]. rewrite S4 in Lq. cbn in Lq. destruct (S3 q Lq) as [X1 X2]. cbn [p_set p_cap p_l]. split; auto.
    destruct (Nat.eq_dec q a) as [->|N]; [rewrite !upd_same; auto|rewrite !upd_diff by auto; auto].
  - exists h', f', (Rer e). split; [reflexivity|]. split; [apply (made_tidy _ _ _ _ _ _ I M)|]. cbn. split; auto.
Qed.
Lemma new_fine : forall h f cap, Inv h f -> fine (QNew cap) h f.
Proof.
  intros h f cap I. destruct (new_made h f cap I) as (h1 & E & M). exists h1, (upd f (nq h) []), (Rok (Some (nq h))). split; [cbn [qexec]; rewrite some_eq, E; reflexivity|].
  split; [apply (made_tidy _ _ _ _ _ _ I M)|]. split; [|reflexivity]. apply (made_same _ _ _ _ _ _ I M).
Qed.
Lemma cap_fine : forall h f q cap, Inv h f -> (q < nq h)%nat -> fine (QSetCap q cap) h f.
Proof.
  intros h f q cap I L.
  assert (P : prim h f (set_q q (fun v => w_av (xsubq cap (inject_Z (u_len v))) (w_cap cap v)) h) f) by (apply (pr_cap h f q cap (fun v => xsubq cap (inject_Z (u_len v)))); auto).
  eexists _, f, (Rok None). split; [reflexivity|]. split; [split; [apply ps_one; exact P|intro q'; auto]|]. split; [|reflexivity]. split; [reflexivity|]. intros q' L'. destruct (prim_inv _ _ _ _ P) as [_ I'].
  rewrite (abs_l _ f q' I' L'). cbn [spec queue_of fst p_l p_cap]. rewrite (abs_l h f q' I L'). split; [|reflexivity]. cbn. unfold upd. destruct (Nat.eqb_spec q' q); subst; auto.
Qed.
Lemma tick_fine : forall h f dt, Inv h f -> 0 <= dt -> fine (QTick dt) h f.
Proof.
  intros h f dt I D. pose proof (pr_tick h f dt I D) as P. eexists _, f, (Rok None). split; [reflexivity|]. split; [split; [apply ps_one; exact P|intro q'; auto]|]. split; [|reflexivity]. split; [reflexivity|].
  intros q' L'. destruct (prim_inv _ _ _ _ P) as [_ I']. rewrite (abs_l _ f q' I' L'). cbn [spec queue_of fst]. rewrite (abs_l h f q' I L'). split; reflexivity.
Qed.
Lemma exec_good : forall o h f q, Inv h f -> (q < nq h)%nat -> queue_of o = Some q -> good o h f q.
Proof.
  intros o h f q0 I L Q. destruct o; cbn in Q; try discriminate; inversion Q; subst q.
  - exists true. apply enter_good; auto.
  - apply enter_head_good; auto.
  - apply enter_front_good; auto.
  - apply enter_behind_good; auto.
  - apply insert_good; auto.
  - apply leave_good; auto.
  - apply prio_good; auto.
  - apply pop_good; auto.
  - apply clear_good; auto.
  - destruct (extend_good q0 source h f I L) as (h' & f' & r & E & O & R). exists true, h', f', r. split; auto. split; auto. split; auto.
    intros e _ X. exfalso. apply (X source). reflexivity.
Qed.
Theorem exec_fine : forall o h f, Inv h f -> qwf h o -> asks o = false -> fine o h f.
Proof.
  intros o h f I W A. destruct (queue_of o) as [q|] eqn:Q.
  - assert (L : (q < nq h)%nat) by (destruct o; cbn in *; try discriminate; inversion Q; subst; auto).
    apply (good_fine _ _ _ q); auto. apply exec_good; auto.
  - destruct o; cbn in *; try discriminate.
    + apply new_fine; auto.
    + apply leave_all_fine; auto.
    + apply cap_fine; auto.
    + apply union_fine; tauto.
    + apply inter_fine; tauto.
    + apply diff_fine; tauto.
    + apply sym_fine; tauto.
    + apply copy_fine; auto.
    + apply move_fine; auto.
    + apply tick_fine; auto.
Qed.
