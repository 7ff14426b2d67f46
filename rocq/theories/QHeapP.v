(** Facts about the linked lists of QHeap: the invariant [Inv h f], f giving the Qmembers of each queue in order, and what each operation does to f. *)
From Coq Require Import QArith Lqa List Bool Arith ZArith Lia.
From Verif Require Import Base QHeap.
Import ListNotations.
Open Scope Q_scope.
Open Scope h_scope.

(** x stands just before y in l *)
Fixpoint adj (x y : nat) (l : list nat) : Prop :=
  match l with
  | [] => False
  | u :: t => match t with [] => False | v :: _ => (x = u /\ y = v) \/ adj x y t end
  end.
Lemma adj_in : forall x y l, adj x y l -> In x l /\ In y l.
Proof.
  induction l as [|u [|v t] IH]; cbn; try tauto.
  intros [[-> ->]|A]; auto. apply IH in A. cbn in A. tauto.
Qed.
Lemma adj_cons : forall x y u v t, adj x y (u :: v :: t) <-> (x = u /\ y = v) \/ adj x y (v :: t).
Proof. intros; cbn; tauto. Qed.
Lemma adj_mid : forall a m1 m2 b x y, adj x y (a ++ m1 :: m2 :: b) <-> adj x y (a ++ [m1]) \/ (x = m1 /\ y = m2) \/ adj x y (m2 :: b).
Proof.
  induction a as [|u a IH]; intros m1 m2 b x y.
  - cbn [app]. rewrite adj_cons. cbn [adj]. tauto.
  - destruct a as [|v a].
    + cbn [app]. rewrite !adj_cons. cbn [adj]. tauto.
    + cbn [app] in *. rewrite adj_cons. rewrite (IH m1 m2 b x y). rewrite adj_cons. tauto.
Qed.
Lemma adj_first : forall a x y z, NoDup (a ++ [z]) -> adj x y (a ++ [z]) -> x <> z.
Proof.
  intros a x y z ND A E. subst z. revert ND A.
  induction a as [|u a IH]; intros ND A; [cbn in A; tauto|].
  destruct a as [|v a].
  - cbn in A. destruct A as [[-> ->]|[]]. cbn in ND. inversion ND; subst. cbn in H1. tauto.
  - cbn [app] in *. rewrite adj_cons in A. inversion ND; subst. destruct A as [[-> ->]|A]; auto.
    apply H1. right. apply in_or_app. cbn. auto.
Qed.
Lemma adj_second : forall x y z b, NoDup (z :: b) -> adj x y (z :: b) -> y <> z.
Proof.
  intros x y z b ND A E. subst z. destruct b as [|v b]; cbn in A; [tauto|].
  inversion ND; subst. destruct A as [[-> ->]|A]; [cbn in H1; tauto|].
  apply (adj_in x y (v :: b)) in A. tauto.
Qed.
Lemma nodup_mid : forall (A : Type) a (x y : A) b, NoDup (a ++ x :: y :: b) <-> NoDup (a ++ [x]) /\ NoDup (y :: b) /\ (forall z, In z (a ++ [x]) -> In z (y :: b) -> False).
Proof.
  intros A a x y b. assert (E : a ++ x :: y :: b = (a ++ [x]) ++ y :: b) by (rewrite <- app_assoc; reflexivity).
  rewrite E. split.
  - intro N. split; [|split].
    + clear E. revert N. generalize (y :: b). intro l. generalize (a ++ [x]). intro k. induction k as [|z k IH]; cbn; intro N; [constructor|].
      inversion N; subst. constructor; auto. intro C. apply H1. apply in_or_app. auto.
    + clear E. revert N. generalize (y :: b). intro l. generalize (a ++ [x]). intro k. induction k as [|z k IH]; cbn; intro N; auto.
      inversion N; auto.
    + clear E. revert N. generalize (y :: b). intro l. generalize (a ++ [x]). intro k. induction k as [|w k IH]; cbn; intro N; [tauto|].
      inversion N; subst. intros z [->|I] J; [apply H1; apply in_or_app; auto|eauto].
  - intros [N [M D]]. clear E. revert N M D. generalize (y :: b). intro l. generalize (a ++ [x]). intro k. induction k as [|w k IH]; cbn; intros N M D; auto.
    inversion N; subst. constructor.
    + intro C. apply in_app_or in C. destruct C; eauto.
    + apply IH; auto. intros z I J. eapply D; eauto.
Qed.
Lemma nodup_app : forall (A : Type) (a b : list A), NoDup (a ++ b) <-> NoDup a /\ NoDup b /\ (forall z, In z a -> In z b -> False).
Proof.
  intros A a b. induction a as [|x a IH]; cbn.
  - split; [intro; split; [constructor|split; auto]|tauto].
  - split.
    + intro N. inversion N; subst. apply IH in H2. destruct H2 as (N1 & N2 & D). split; [|split; auto].
      * constructor; auto. intro C. apply H1. apply in_or_app. auto.
      * intros z [->|I] J; [apply H1; apply in_or_app; auto|eauto].
    + intros (N1 & N2 & D). inversion N1; subst. constructor.
      * intro C. apply in_app_or in C. destruct C; [auto|eauto].
      * apply IH. split; [auto|split; [auto|]]. intros z I J. eapply D; eauto.
Qed.

(** the chain of a queue is properly linked *)
Definition linked (M : nat -> qm) (l : list nat) : Prop := forall x y, adj x y l -> m_succ (M x) = Some y /\ m_pred (M y) = Some x.

Lemma linked_ext : forall M M' l, linked M l -> (forall m, In m l -> M' m = M m) -> linked M' l.
Proof. intros M M' l L E x y A. pose proof (adj_in _ _ _ A) as [I J]. rewrite (E x I), (E y J). apply L. exact A. Qed.
Lemma linked_ext' : forall M M' l, linked M l -> (forall m, In m l -> m_succ (M' m) = m_succ (M m) /\ m_pred (M' m) = m_pred (M m)) -> linked M' l.
Proof. intros M M' l L E x y A. pose proof (adj_in _ _ _ A) as [I J]. destruct (E x I) as [-> _]. destruct (E y J) as [_ ->]. apply L. exact A. Qed.

(** putting s between m1 and m2 *)
Lemma linked_insert : forall M M' a m1 m2 b s,
  linked M (a ++ m1 :: m2 :: b) -> NoDup (a ++ m1 :: m2 :: b) -> ~ In s (a ++ m1 :: m2 :: b) ->
  m_succ (M' m1) = Some s -> m_pred (M' s) = Some m1 -> m_succ (M' s) = Some m2 -> m_pred (M' m2) = Some s ->
  (forall x, x <> s -> x <> m1 -> m_succ (M' x) = m_succ (M x)) -> (forall x, x <> s -> x <> m2 -> m_pred (M' x) = m_pred (M x)) ->
  linked M' (a ++ m1 :: s :: m2 :: b).
Proof.
  intros M M' a m1 m2 b s L ND NI E1 E2 E3 E4 F1 F2 x y A.
  apply adj_mid in A. rewrite adj_cons in A.
  assert (NS : forall z, In z (a ++ m1 :: m2 :: b) -> z <> s) by (intros z I ->; auto).
  pose proof (proj1 (nodup_mid _ _ _ _ _) ND) as (N1 & N2 & D).
  assert (IA : forall z, In z (a ++ [m1]) -> In z (a ++ m1 :: m2 :: b)) by (intros z I; apply in_or_app; apply in_app_or in I; cbn in *; tauto).
  assert (IB : forall z, In z (m2 :: b) -> In z (a ++ m1 :: m2 :: b)) by (intros z I; apply in_or_app; cbn in *; tauto).
  destruct A as [A|[[-> ->]|[[-> ->]|A]]]; auto.
  - pose proof (adj_in _ _ _ A) as [I J]. pose proof (adj_first _ _ _ _ N1 A) as K.
    assert (LX := L x y (proj2 (adj_mid _ _ _ _ _ _) (or_introl A))).
    rewrite F1, F2; auto. intros ->. apply (D m2); cbn; auto.
  - pose proof (adj_in _ _ _ A) as [I J]. pose proof (adj_second _ _ _ _ N2 A) as K.
    assert (LX := L x y (proj2 (adj_mid _ _ _ _ _ _) (or_intror (or_intror A)))).
    rewrite F1, F2; auto. intros ->. apply (D m1); auto. apply in_or_app; cbn; auto.
Qed.
(** taking s away between m1 and m2 *)
Lemma linked_remove : forall M M' a m1 m2 b s,
  linked M (a ++ m1 :: s :: m2 :: b) -> NoDup (a ++ m1 :: s :: m2 :: b) ->
  m_succ (M' m1) = Some m2 -> m_pred (M' m2) = Some m1 ->
  (forall x, x <> s -> x <> m1 -> m_succ (M' x) = m_succ (M x)) -> (forall x, x <> s -> x <> m2 -> m_pred (M' x) = m_pred (M x)) ->
  linked M' (a ++ m1 :: m2 :: b).
Proof.
  intros M M' a m1 m2 b s L ND E1 E2 F1 F2 x y A.
  apply adj_mid in A.
  pose proof (proj1 (nodup_mid _ _ _ _ _) ND) as (N1 & N2 & D).
  destruct A as [A|[[-> ->]|A]]; auto.
  - pose proof (adj_in _ _ _ A) as [I J]. pose proof (adj_first _ _ _ _ N1 A) as K.
    assert (LX := L x y (proj2 (adj_mid _ _ _ _ _ _) (or_introl A))).
    rewrite F1, F2; auto; intros ->.
    + apply (D s); cbn; auto.
    + apply (D m2); cbn; auto.
    + apply (D s); cbn; auto.
  - pose proof (adj_in _ _ _ A) as [I J]. inversion N2; subst. pose proof (adj_second _ _ _ _ H2 A) as K.
    assert (LX := L x y (proj2 (adj_mid a m1 s (m2 :: b) x y) (or_intror (or_intror (proj2 (adj_cons _ _ _ _ _) (or_intror A)))))).
    rewrite F1, F2; auto; intros ->; auto.
    apply (D m1); [apply in_or_app; cbn; auto|right; auto].
Qed.

(** the first of l, or d *)
Definition fst_or (l : list nat) (d : nat) : nat := match l with [] => d | x :: _ => x end.
Definition lst_or (l : list nat) (d : nat) : nat := last l d.
Lemma split_first : forall l d, exists b, l ++ [d] = fst_or l d :: b.
Proof. intros [|x l] d; cbn; eauto. Qed.
Lemma split_last : forall l d, exists a, d :: l = a ++ [lst_or l d].
Proof.
  intros l d. destruct l as [|x l]; [exists []; reflexivity|].
  assert (NE : x :: l <> []) by discriminate.
  exists (d :: removelast (x :: l)). unfold lst_or. cbn [app]. f_equal. apply app_removelast_last. exact NE.
Qed.
Lemma lst_or_app : forall a x d, lst_or (a ++ [x]) d = x.
Proof. intros. apply last_last. Qed.
Lemma last_app_ne : forall b a (d d' : nat), b <> [] -> last (a ++ b) d = last b d'.
Proof.
  intros b a. induction a as [|x a IH]; intros d d' NE; cbn [app].
  - destruct b as [|y b]; [congruence|]. clear NE. revert y. induction b as [|z b IH]; intro y; cbn in *; auto.
  - specialize (IH d d' NE). cbn. destruct (a ++ b) eqn:E; auto. apply app_eq_nil in E. tauto.
Qed.

Record Inv (h : heap) (f : nat -> list nat) : Prop := {
  iv_lnk : forall q, (q < nq h)%nat -> linked (mm h) (u_head (qq h q) :: f q ++ [u_tail (qq h q)]);
  iv_nd : forall q, (q < nq h)%nat -> NoDup (u_head (qq h q) :: f q ++ [u_tail (qq h q)]);
  iv_lt : forall q m, (q < nq h)%nat -> In m (u_head (qq h q) :: f q ++ [u_tail (qq h q)]) -> (m < nm h)%nat /\ m_q (mm h m) = q;
  iv_end : forall q, (q < nq h)%nat -> m_comp (mm h (u_head (qq h q))) = None /\ m_prio (mm h (u_head (qq h q))) = Fin 0 /\
                                  m_comp (mm h (u_tail (qq h q))) = None /\ m_prio (mm h (u_tail (qq h q))) = Fin 0;
  iv_comp : forall q m, (q < nq h)%nat -> In m (f q) -> exists c, m_comp (mm h m) = Some c;
  iv_live : forall m c, (m < nm h)%nat -> m_comp (mm h m) = Some c -> (m_q (mm h m) < nq h)%nat /\ In m (f (m_q (mm h m)));
  iv_len : forall q, (q < nq h)%nat -> u_len (qq h q) = Z.of_nat (length (f q));
  iv_mb : forall c q m, member c q h = Some m <-> (q < nq h)%nat /\ In m (f q) /\ m_comp (mm h m) = Some c;
  iv_keys : forall c, NoDup (keys (mb h c));
  iv_nil : forall q, (nq h <= q)%nat -> f q = []
}.

Lemma iv_uniq : forall h f c q m m', Inv h f -> (q < nq h)%nat -> In m (f q) -> In m' (f q) -> m_comp (mm h m) = Some c -> m_comp (mm h m') = Some c -> m = m'.
Proof.
  intros h f c q m m' I L A B C D.
  pose proof (proj2 (iv_mb _ _ I c q m) (conj L (conj A C))). pose proof (proj2 (iv_mb _ _ I c q m') (conj L (conj B D))). congruence.
Qed.
Lemma iv_in_lt : forall h f q m, Inv h f -> (q < nq h)%nat -> In m (f q) -> (m < nm h)%nat /\ m_q (mm h m) = q.
Proof. intros h f q m I L A. apply (iv_lt _ _ I q m L). right. apply in_or_app. auto. Qed.
Lemma iv_q_lt : forall h f q m, Inv h f -> In m (f q) -> (q < nq h)%nat.
Proof. intros h f q m I A. destruct (le_lt_dec (nq h) q) as [L|]; auto. rewrite (iv_nil _ _ I q L) in A. destruct A. Qed.
Lemma iv_nodup : forall h f q, Inv h f -> NoDup (f q).
Proof.
  intros h f q I. destruct (le_lt_dec (nq h) q) as [L|L]; [rewrite (iv_nil _ _ I q L); constructor|].
  pose proof (iv_nd _ _ I q L) as N. inversion N; subst. apply nodup_app in H2. tauto.
Qed.
Lemma iv_head_notin : forall h f q, Inv h f -> (q < nq h)%nat -> ~ In (u_head (qq h q)) (f q) /\ ~ In (u_tail (qq h q)) (f q) /\ u_head (qq h q) <> u_tail (qq h q).
Proof.
  intros h f q I L. pose proof (iv_nd _ _ I q L) as N. inversion N; subst. apply nodup_app in H2. destruct H2 as (_ & _ & D).
  split; [intro C; apply H1; apply in_or_app; auto|]. split; [intro C; eapply D; cbn; eauto|].
  intro C. apply H1. apply in_or_app. cbn. auto.
Qed.
Lemma bounded_length : forall l n, NoDup l -> (forall x, In x l -> (x < n)%nat) -> (length l <= n)%nat.
Proof.
  intros l n ND B. rewrite <- (seq_length n 0). apply NoDup_incl_length; auto. intros x I. apply in_seq. apply B in I. lia.
Qed.
Lemma iv_length : forall h f q, Inv h f -> (q < nq h)%nat -> (S (S (length (f q))) <= nm h)%nat.
Proof.
  intros h f q I L.
  pose proof (bounded_length _ (nm h) (iv_nd _ _ I q L) (fun x J => proj1 (iv_lt _ _ I q x L J))) as B.
  cbn in B. rewrite app_length in B. cbn in B. lia.
Qed.

(** neighbours of a place in a queue *)
Lemma at_split : forall h f q a b, Inv h f -> (q < nq h)%nat -> f q = a ++ b ->
  m_succ (mm h (lst_or a (u_head (qq h q)))) = Some (fst_or b (u_tail (qq h q))) /\ m_pred (mm h (fst_or b (u_tail (qq h q)))) = Some (lst_or a (u_head (qq h q))).
Proof.
  intros h f q a b I L E.
  pose proof (iv_lnk _ _ I q L) as LK. rewrite E in LK.
  destruct (split_last a (u_head (qq h q))) as [a' Ea]. destruct (split_first b (u_tail (qq h q))) as [b' Eb].
  apply LK. rewrite <- app_assoc, Eb, app_comm_cons, Ea, <- app_assoc. cbn [app]. apply adj_mid. auto.
Qed.
Lemma lst_or_in : forall a d, lst_or a d = d \/ In (lst_or a d) a.
Proof.
  intros a d. destruct a as [|x a]; [left; reflexivity|right]. unfold lst_or.
  destruct (@exists_last _ (x :: a) ltac:(discriminate)) as (l & y & ->). rewrite last_last. apply in_or_app. cbn. auto.
Qed.

Lemma sc_at : forall h f q a b, Inv h f -> (q < nq h)%nat -> f q = a ++ b -> sc (lst_or a (u_head (qq h q))) h = Rok (fst_or b (u_tail (qq h q))).
Proof. intros h f q a b I L E. unfold sc. rewrite (proj1 (at_split h f q a b I L E)). reflexivity. Qed.
Lemma pd_at : forall h f q a b, Inv h f -> (q < nq h)%nat -> f q = a ++ b -> pd (fst_or b (u_tail (qq h q))) h = Rok (lst_or a (u_head (qq h q))).
Proof. intros h f q a b I L E. unfold pd. rewrite (proj2 (at_split h f q a b I L E)). reflexivity. Qed.
Lemma sc_head : forall h f q, Inv h f -> (q < nq h)%nat -> sc (u_head (qq h q)) h = Rok (fst_or (f q) (u_tail (qq h q))).
Proof. intros h f q I L. exact (sc_at h f q [] (f q) I L eq_refl). Qed.
Lemma pd_tail : forall h f q, Inv h f -> (q < nq h)%nat -> pd (u_tail (qq h q)) h = Rok (lst_or (f q) (u_head (qq h q))).
Proof. intros h f q I L. apply (pd_at h f q (f q) [] I L). now rewrite app_nil_r. Qed.
Lemma sc_in : forall h f q a m b, Inv h f -> (q < nq h)%nat -> f q = a ++ m :: b -> sc m h = Rok (fst_or b (u_tail (qq h q))).
Proof.
  intros h f q a m b I L E. rewrite <- (lst_or_app a m (u_head (qq h q))). apply (sc_at h f q _ b I L). rewrite E, <- app_assoc. reflexivity.
Qed.
Lemma pd_in : forall h f q a m b, Inv h f -> (q < nq h)%nat -> f q = a ++ m :: b -> pd m h = Rok (lst_or a (u_head (qq h q))).
Proof. intros h f q a m b I L E. apply (pd_at h f q a (m :: b) I L E). Qed.

(** *** walking *)
Lemma walk_ok : forall h f q, Inv h f -> (q < nq h)%nat -> forall b a fuel, f q = a ++ b -> (length b < fuel)%nat -> walk fuel (u_tail (qq h q)) (fst_or b (u_tail (qq h q))) h = Rok b.
Proof.
  intros h f q I L. induction b as [|m b IH]; intros a fuel E Lt; (destruct fuel as [|fuel]; [lia|]).
  - cbn. now rewrite Nat.eqb_refl.
  - cbn [walk fst_or]. destruct (iv_head_notin h f q I L) as (_ & NT & _).
    destruct (Nat.eqb_spec m (u_tail (qq h q))) as [C|_]; [exfalso; apply NT; rewrite <- C, E; apply in_or_app; cbn; auto|].
    rewrite (sc_in h f q a m b I L E). cbn [rbind]. rewrite (IH (a ++ [m])); [reflexivity|rewrite E, <- app_assoc; reflexivity|cbn in Lt; lia].
Qed.
Lemma members_ok : forall h f q, Inv h f -> (q < nq h)%nat -> members q h = Rok (f q).
Proof.
  intros h f q I L. unfold members. rewrite (sc_head h f q I L). cbn [rbind]. apply (walk_ok h f q I L (f q) []); auto.
  pose proof (iv_length h f q I L). lia.
Qed.
Lemma walk_back_ok : forall h f q, Inv h f -> (q < nq h)%nat -> forall a b fuel, f q = a ++ b -> (length a < fuel)%nat -> walk_back fuel (u_head (qq h q)) (lst_or a (u_head (qq h q))) h = Rok (rev a).
Proof.
  intros h f q I L. induction a as [|m a IH] using rev_ind; intros b fuel E Lt; (destruct fuel as [|fuel]; [lia|]).
  - cbn. now rewrite Nat.eqb_refl.
  - cbn [walk_back]. rewrite lst_or_app. destruct (iv_head_notin h f q I L) as (NH & _ & _).
    rewrite <- app_assoc in E. cbn in E.
    destruct (Nat.eqb_spec m (u_head (qq h q))) as [C|_]; [exfalso; apply NH; rewrite <- C, E; apply in_or_app; cbn; auto|].
    rewrite (pd_in h f q a m b I L E). cbn [rbind]. rewrite app_length in Lt. cbn in Lt.
    rewrite (IH (m :: b)); [|auto|lia]. cbn [rbind]. rewrite rev_app_distr. reflexivity.
Qed.
Lemma members_back_ok : forall h f q, Inv h f -> (q < nq h)%nat -> members_back q h = Rok (rev (f q)).
Proof.
  intros h f q I L. unfold members_back. rewrite (pd_tail h f q I L). cbn [rbind]. apply (walk_back_ok h f q I L (f q) []); [now rewrite app_nil_r|].
  pose proof (iv_length h f q I L). lia.
Qed.
(** the invariant determines f *)
Lemma iv_fun : forall h f f', Inv h f -> Inv h f' -> forall q, f q = f' q.
Proof.
  intros h f f' I J q. destruct (le_lt_dec (nq h) q) as [L|L].
  - rewrite (iv_nil _ _ I q L), (iv_nil _ _ J q L). reflexivity.
  - pose proof (members_ok h f q I L). pose proof (members_ok h f' q J L). congruence.
Qed.

(** *** entering *)
Definition q_in (t : Q) (av : xq) (v : qu) : qu :=
  mkQu (u_head v) (u_tail v) (u_len v + 1) (u_cap v) av (touch_all (u_touch v)) (u_seq v) (u_arr v + 1) (u_dep v) ((t, u_len v + 1)%Z :: u_llog v) (u_slog v).
Definition room (v : qu) : xq := xsubq (xsubq (u_cap v) (inject_Z (u_len v))) 1.
Record inserted (h h' : heap) (q c : nat) (p : xq) : Prop := {
  in_nm : nm h' = S (nm h); in_nq : nq h' = nq h; in_ck : ck h' = ck h; in_its : its h' = its h; in_ni : ni h' = ni h;
  in_old : forall x, x <> nm h -> m_prio (mm h' x) = m_prio (mm h x) /\ m_comp (mm h' x) = m_comp (mm h x) /\ m_q (mm h' x) = m_q (mm h x) /\ m_time (mm h' x) = m_time (mm h x);
  in_new : m_prio (mm h' (nm h)) = p /\ m_comp (mm h' (nm h)) = Some c /\ m_q (mm h' (nm h)) = q /\ m_time (mm h' (nm h)) = ck h;
  in_q : qq h' q = q_in (ck h) (room (qq h q)) (qq h q);
  in_qo : forall q', q' <> q -> qq h' q' = qq h q';
  in_mb : mb h' = upd (mb h) c (aset q (nm h) (mb h c))
}.

Ltac ups := repeat match goal with
  | |- context [upd _ ?k _ ?k] => rewrite upd_same
  | N : ?x <> ?k |- context [upd _ ?k _ ?x] => rewrite (upd_diff _ _ k _ x N)
  | N : ?k <> ?x |- context [upd _ ?k _ ?x] => rewrite (upd_diff _ _ k _ x (not_eq_sym N))
  end.
Ltac upc := unfold upd; repeat match goal with |- context [Nat.eqb ?x ?y] => destruct (Nat.eqb_spec x y) end.

Lemma inv_upd_other : forall (f : nat -> list nat) q l q', q' <> q -> upd f q l q' = f q'.
Proof. intros. now apply upd_diff. Qed.

Lemma insert_full : forall m2 c q p h, xltb (room (qq h q)) (Fin 0) = true -> insert_in_front_of m2 c q p h = (h, Rer EFull).
Proof. intros m2 c q p h R. unfold insert_in_front_of. cbv zeta. unfold room in R. rewrite R. reflexivity. Qed.

Lemma insert_ok : forall h f q a b c p, Inv h f -> (q < nq h)%nat -> f q = a ++ b -> member c q h = None -> xltb (room (qq h q)) (Fin 0) = false ->
  exists h', insert_in_front_of (fst_or b (u_tail (qq h q))) c q p h = (h', Rok tt) /\ inserted h h' q c p /\ Inv h' (upd f q (a ++ nm h :: b)).
Proof.
  intros h f q a b c p I L E NM RM.
  unfold insert_in_front_of. cbv zeta. unfold room in RM. rewrite RM.
  destruct (at_split h f q a b I L E) as [SC PD]. rewrite PD.
  set (m2 := fst_or b (u_tail (qq h q))) in *. set (m1 := lst_or a (u_head (qq h q))) in *.
  eexists. split; [reflexivity|].
  match goal with |- inserted h ?x q c p /\ _ => set (h' := x) end.
  destruct (split_last a (u_head (qq h q))) as [a' Ea]. destruct (split_first b (u_tail (qq h q))) as [b' Eb].
  assert (CH : u_head (qq h q) :: f q ++ [u_tail (qq h q)] = a' ++ m1 :: m2 :: b') by (rewrite E, <- app_assoc, Eb, app_comm_cons, Ea, <- app_assoc; reflexivity).
  pose proof (iv_nd _ _ I q L) as ND. pose proof (iv_lnk _ _ I q L) as LK.
  assert (BD := fun m => iv_lt _ _ I q m L). rewrite CH in ND, LK, BD.
  assert (I1 : In m1 (a' ++ m1 :: m2 :: b')) by (apply in_or_app; cbn; auto).
  assert (I2 : In m2 (a' ++ m1 :: m2 :: b')) by (apply in_or_app; cbn; auto).
  assert (N12 : m1 <> m2). { intro C. rewrite C in ND. apply nodup_app in ND. destruct ND as (_ & N & _). inversion N. cbn in *; tauto. }
  destruct (BD m1 I1) as [B1 _]. destruct (BD m2 I2) as [B2 _].
  assert (N1 : m1 <> nm h) by lia. assert (N2 : m2 <> nm h) by lia.
  assert (INS : inserted h h' q c p).
  { unfold h'. constructor; cbn [mm nm qq nq mb ck its ni set_m set_q set_mb]; auto.
    - intros x NX. upc; subst; cbn; auto; try congruence.
    - ups. cbn. auto.
    - ups. reflexivity.
    - intros q' Nq. ups. reflexivity. }
  assert (SU : forall x, x <> nm h -> x <> m1 -> m_succ (mm h' x) = m_succ (mm h x)).
  { intros x X1 X2. unfold h'. cbn [mm nm qq nq mb ck its ni set_m set_q set_mb]. upc; subst; cbn; auto; try congruence. }
  assert (PR : forall x, x <> nm h -> x <> m2 -> m_pred (mm h' x) = m_pred (mm h x)).
  { intros x X1 X2. unfold h'. cbn [mm nm qq nq mb ck its ni set_m set_q set_mb]. upc; subst; cbn; auto; try congruence. }
  assert (E1 : m_succ (mm h' m1) = Some (nm h)) by (unfold h'; cbn [mm nm qq nq mb ck its ni set_m set_q set_mb]; ups; reflexivity).
  assert (E2 : m_pred (mm h' (nm h)) = Some m1) by (unfold h'; cbn [mm nm qq nq mb ck its ni set_m set_q set_mb]; ups; reflexivity).
  assert (E3 : m_succ (mm h' (nm h)) = Some m2) by (unfold h'; cbn [mm nm qq nq mb ck its ni set_m set_q set_mb]; ups; reflexivity).
  assert (E4 : m_pred (mm h' m2) = Some (nm h)) by (unfold h'; cbn [mm nm qq nq mb ck its ni set_m set_q set_mb]; ups; reflexivity).
  clearbody h'. clear PD SC.
  split; [exact INS|]. destruct INS.
  assert (HT : forall q', u_head (qq h' q') = u_head (qq h q') /\ u_tail (qq h' q') = u_tail (qq h q')).
  { intro q'. destruct (Nat.eq_dec q' q) as [->|Nq]; [rewrite in_q0; cbn; auto|rewrite in_qo0; auto]. }
  assert (CH' : u_head (qq h q) :: (a ++ nm h :: b) ++ [u_tail (qq h q)] = a' ++ m1 :: nm h :: m2 :: b').
  { rewrite <- app_assoc. cbn [app]. rewrite Eb. rewrite app_comm_cons, Ea, <- app_assoc. reflexivity. }
  assert (NIN : forall q', (q' < nq h)%nat -> ~ In (nm h) (u_head (qq h q') :: f q' ++ [u_tail (qq h q')])).
  { intros q' L' C. apply (iv_lt _ _ I q' _ L') in C. lia. }
  assert (NIQ : forall q', ~ In (nm h) (f q')).
  { intros q' C. pose proof (iv_q_lt _ _ _ _ I C) as L'. apply (NIN q' L'). right. apply in_or_app. auto. }
  assert (CPN : forall x, x <> nm h -> m_comp (mm h' x) = m_comp (mm h x)) by (intros x NX; apply in_old0; auto).
  assert (NDK := iv_keys _ _ I c).
  constructor.
  - intros q' L'. rewrite in_nq0 in L'. destruct (HT q') as [-> ->]. destruct (Nat.eq_dec q' q) as [->|Nq].
    + rewrite upd_same, CH'. eapply linked_insert; eauto. rewrite <- CH. auto.
    + rewrite upd_diff by auto. eapply linked_ext'; [apply (iv_lnk _ _ I q' L')|].
      intros m IM. destruct (iv_lt _ _ I q' m L' IM) as [Lm Qm]. split.
      * apply SU; [lia|]. intros ->. destruct (BD m1 I1). congruence.
      * apply PR; [lia|]. intros ->. destruct (BD m2 I2). congruence.
  - intros q' L'. rewrite in_nq0 in L'. destruct (HT q') as [-> ->]. destruct (Nat.eq_dec q' q) as [->|Nq].
    + rewrite upd_same, CH'. pose proof (proj1 (nodup_mid _ _ _ _ _) ND) as (X1 & X2 & X3). apply nodup_mid.
      assert (NQ : ~ In (nm h) (a' ++ m1 :: m2 :: b')) by (rewrite <- CH; auto).
      split; [auto|]. split; [constructor; auto; intro C; apply NQ; apply in_or_app; cbn in *; tauto|].
      intros z Z1 [<-|Z2]; [|eauto]. apply NQ. apply in_or_app. apply in_app_or in Z1. cbn in *. tauto.
    + rewrite upd_diff by auto. apply (iv_nd _ _ I q' L').
  - intros q' m L' IM. rewrite in_nq0 in L'. destruct (HT q') as [H1 H2]. rewrite H1, H2 in IM. rewrite in_nm0. destruct (Nat.eq_dec q' q) as [->|Nq].
    + rewrite upd_same, CH' in IM. destruct (Nat.eq_dec m (nm h)) as [->|Nm].
      * split; [lia|]. tauto.
      * destruct (in_old0 m Nm) as (_ & _ & -> & _).
        assert (IM' : In m (a' ++ m1 :: m2 :: b')) by (apply in_or_app; apply in_app_or in IM; cbn in *; destruct IM as [?|[?|[?|?]]]; auto; congruence).
        destruct (BD m IM'). split; [lia|auto].
    + rewrite upd_diff in IM by auto. destruct (iv_lt _ _ I q' m L' IM) as [Lm Qm]. split; [lia|]. destruct (in_old0 m) as (_ & _ & -> & _); [lia|auto].
  - intros q' L'. rewrite in_nq0 in L'. destruct (HT q') as [-> ->]. pose proof (iv_end _ _ I q' L') as X.
    assert (LH : (u_head (qq h q') < nm h)%nat) by (apply (iv_lt _ _ I q'); cbn; auto).
    assert (LT : (u_tail (qq h q') < nm h)%nat) by (apply (iv_lt _ _ I q'); auto; right; apply in_or_app; cbn; auto).
    destruct (in_old0 (u_head (qq h q'))) as (-> & -> & _); [lia|]. destruct (in_old0 (u_tail (qq h q'))) as (-> & -> & _); [lia|]. exact X.
  - intros q' m L' IM. rewrite in_nq0 in L'. destruct (Nat.eq_dec m (nm h)) as [->|Nm].
    + exists c. tauto.
    + rewrite CPN by auto. apply (iv_comp _ _ I q' m L'). destruct (Nat.eq_dec q' q) as [->|Nq].
      * rewrite upd_same in IM. rewrite E. apply in_or_app. apply in_app_or in IM. cbn in IM. destruct IM as [?|[?|?]]; auto. congruence.
      * rewrite upd_diff in IM by auto. auto.
  - intros m c' Lm Cm. rewrite in_nm0 in Lm. rewrite in_nq0. destruct (Nat.eq_dec m (nm h)) as [->|Nm].
    + destruct in_new0 as (_ & _ & -> & _). split; auto. rewrite upd_same. apply in_or_app. cbn. auto.
    + rewrite CPN in Cm by auto. destruct (in_old0 m Nm) as (_ & _ & -> & _). destruct (iv_live _ _ I m c') as [X1 X2]; [lia|auto|]. split; auto.
      destruct (Nat.eq_dec (m_q (mm h m)) q) as [Q1|Nq].
      * rewrite Q1, upd_same. rewrite Q1, E in X2. apply in_or_app. apply in_app_or in X2. cbn. tauto.
      * rewrite upd_diff; auto.
  - intros q' L'. rewrite in_nq0 in L'. destruct (Nat.eq_dec q' q) as [->|Nq].
    + rewrite in_q0, upd_same. cbn. rewrite (iv_len _ _ I q L), E, !app_length. cbn. lia.
    + rewrite in_qo0, upd_diff by auto. apply (iv_len _ _ I q' L').
  - intros c' q' m. unfold member. rewrite in_mb0, in_nq0. destruct (Nat.eq_dec c' c) as [->|Nc].
    + rewrite upd_same. destruct (Nat.eq_dec q' q) as [->|Nq].
      * rewrite alookup_aset_same, upd_same. split.
        -- intro X. inversion X; subst. split; auto. split; [apply in_or_app; cbn; auto|]. tauto.
        -- intros (_ & IM & CM). destruct (Nat.eq_dec m (nm h)) as [->|Nm]; auto. exfalso.
           rewrite CPN in CM by auto.
           assert (IM' : In m (f q)) by (rewrite E; apply in_or_app; apply in_app_or in IM; cbn in IM; destruct IM as [?|[?|?]]; auto; congruence).
           pose proof (proj2 (iv_mb _ _ I c q m) (conj L (conj IM' CM))). congruence.
      * rewrite alookup_aset_diff by auto. rewrite upd_diff by auto. pose proof (iv_mb _ _ I c q' m) as X. unfold member in X. rewrite X.
        split; intros (A1 & A2 & A3); assert (Nm : m <> nm h) by (intros ->; apply (NIQ q'); auto); (split; [auto|split; [auto|]]); [rewrite CPN|rewrite CPN in A3]; auto.
    + rewrite upd_diff by auto. pose proof (iv_mb _ _ I c' q' m) as X. unfold member in X. rewrite X.
      destruct (Nat.eq_dec m (nm h)) as [->|Nm].
      * split; intros (A1 & A2 & A3); exfalso; [apply (NIQ q'); auto|]. destruct in_new0 as (_ & X1 & _). congruence.
      * rewrite CPN by auto. destruct (Nat.eq_dec q' q) as [->|Nq]; [|rewrite upd_diff by auto; tauto].
        rewrite upd_same, E. split; intros (A1 & A2 & A3); (split; [auto|split; [|auto]]).
        -- apply in_or_app. apply in_app_or in A2. cbn. tauto.
        -- apply in_or_app. apply in_app_or in A2. cbn in A2. destruct A2 as [?|[?|?]]; auto. congruence.
  - intro c'. rewrite in_mb0. destruct (Nat.eq_dec c' c) as [->|Nc]; [rewrite upd_same; apply NoDup_aset; auto|rewrite upd_diff by auto; apply (iv_keys _ _ I)].
  - intros q' L'. rewrite in_nq0 in L'. rewrite upd_diff by lia. apply (iv_nil _ _ I); auto.
Qed.

(** *** leaving *)
Definition q_out (t st : Q) (v : qu) : qu :=
  mkQu (u_head v) (u_tail v) (u_len v - 1) (u_cap v) (xsubq (u_cap v) (inject_Z (u_len v - 1))) (u_touch v) (u_seq v) (u_arr v) (u_dep v + 1) ((t, u_len v - 1)%Z :: u_llog v) (st :: u_slog v).
Record left (h h' : heap) (q c m : nat) : Prop := {
  lf_nm : nm h' = nm h; lf_nq : nq h' = nq h; lf_ck : ck h' = ck h; lf_its : its h' = its h; lf_ni : ni h' = ni h;
  lf_old : forall x, m_prio (mm h' x) = m_prio (mm h x) /\ m_q (mm h' x) = m_q (mm h x) /\ m_time (mm h' x) = m_time (mm h x);
  lf_comp : forall x, x <> m -> m_comp (mm h' x) = m_comp (mm h x);
  lf_gone : m_comp (mm h' m) = None;
  lf_succ : m_succ (mm h' m) = m_succ (mm h m);
  lf_q : qq h' q = q_out (ck h) (ck h - m_time (mm h m)) (qq h q);
  lf_qo : forall q', q' <> q -> qq h' q' = qq h q';
  lf_mb : mb h' = upd (mb h) c (adel q (mb h c))
}.
Lemma leave_none : forall h c q, member c q h = None -> leave c q h = (h, Rer EValue).
Proof. intros h c q N. unfold leave, hbind, check_in. rewrite N. reflexivity. Qed.

Lemma split_in : forall (m : nat) l, In m l -> exists a b, l = a ++ m :: b.
Proof. intros m l I. apply in_split in I. exact I. Qed.

Lemma leave_ok : forall h f q a m b c, Inv h f -> (q < nq h)%nat -> f q = a ++ m :: b -> m_comp (mm h m) = Some c ->
  exists h', leave c q h = (h', Rok tt) /\ left h h' q c m /\ Inv h' (upd f q (a ++ b)).
Proof.
  intros h f q a m b c I L E CM.
  assert (IM : In m (f q)) by (rewrite E; apply in_or_app; cbn; auto).
  assert (MB : member c q h = Some m) by (apply (iv_mb _ _ I); auto).
  unfold leave, hbind, check_in. rewrite MB. cbn [rd].
  unfold rd. rewrite (pd_in h f q a m b I L E), (sc_in h f q a m b I L E). unfold hput.
  set (m2 := fst_or b (u_tail (qq h q))) in *. set (m1 := lst_or a (u_head (qq h q))) in *.
  eexists. split; [reflexivity|].
  match goal with |- left h ?x q c m /\ _ => set (h' := x) end.
  destruct (split_last a (u_head (qq h q))) as [a' Ea]. destruct (split_first b (u_tail (qq h q))) as [b' Eb].
  assert (CH : u_head (qq h q) :: f q ++ [u_tail (qq h q)] = a' ++ m1 :: m :: m2 :: b').
  { rewrite E, <- app_assoc. cbn [app]. rewrite Eb, app_comm_cons, Ea, <- app_assoc. reflexivity. }
  pose proof (iv_nd _ _ I q L) as ND. pose proof (iv_lnk _ _ I q L) as LK.
  assert (BD := fun m => iv_lt _ _ I q m L). rewrite CH in ND, LK, BD.
  assert (I1 : In m1 (a' ++ m1 :: m :: m2 :: b')) by (apply in_or_app; cbn; auto).
  assert (I2 : In m2 (a' ++ m1 :: m :: m2 :: b')) by (apply in_or_app; cbn; auto).
  pose proof (proj1 (nodup_app _ _ _) ND) as (_ & N & _).
  assert (N1 : m1 <> m) by (intro C; rewrite C in N; inversion N; cbn in *; tauto).
  assert (N12 : m1 <> m2) by (intro C; rewrite C in N; inversion N; cbn in *; tauto).
  assert (N2 : m2 <> m) by (intro C; rewrite C in N; inversion N as [|? ? ? N']; subst; inversion N'; cbn in *; tauto). clear N.
  assert (INS : left h h' q c m).
  { unfold h'. constructor; cbn [mm nm qq nq mb ck its ni set_m set_q set_mb]; auto.
    - intros x. upc; subst; cbn; auto; try congruence.
    - intros x NX. upc; subst; cbn; auto; try congruence.
    - ups. reflexivity.
    - ups. cbn. auto.
    - ups. cbn. reflexivity.
    - intros q' Nq. ups. reflexivity. }
  assert (SU : forall x, x <> m -> x <> m1 -> m_succ (mm h' x) = m_succ (mm h x)).
  { intros x X1 X2. unfold h'. cbn [mm nm qq nq mb ck its ni set_m set_q set_mb]. upc; subst; cbn; auto; try congruence. }
  assert (PR : forall x, x <> m -> x <> m2 -> m_pred (mm h' x) = m_pred (mm h x)).
  { intros x X1 X2. unfold h'. cbn [mm nm qq nq mb ck its ni set_m set_q set_mb]. upc; subst; cbn; auto; try congruence. }
  assert (E1 : m_succ (mm h' m1) = Some m2) by (unfold h'; cbn [mm nm qq nq mb ck its ni set_m set_q set_mb]; ups; reflexivity).
  assert (E2 : m_pred (mm h' m2) = Some m1) by (unfold h'; cbn [mm nm qq nq mb ck its ni set_m set_q set_mb]; ups; reflexivity).
  clearbody h'.
  destruct (BD m1 I1) as [B1 Q1]. destruct (BD m2 I2) as [B2 Q2].
  split; [exact INS|]. destruct INS.
  assert (HT : forall q', u_head (qq h' q') = u_head (qq h q') /\ u_tail (qq h' q') = u_tail (qq h q')).
  { intro q'. destruct (Nat.eq_dec q' q) as [->|Nq]; [rewrite lf_q0; cbn; auto|rewrite lf_qo0; auto]. }
  assert (CH' : u_head (qq h q) :: (a ++ b) ++ [u_tail (qq h q)] = a' ++ m1 :: m2 :: b').
  { rewrite <- app_assoc. rewrite Eb. rewrite app_comm_cons, Ea, <- app_assoc. reflexivity. }
  assert (MF : forall q', In m (f q') -> q' = q).
  { intros q' C. pose proof (iv_q_lt _ _ _ _ I C) as L'. destruct (iv_in_lt _ _ _ _ I L' C). destruct (iv_in_lt _ _ _ _ I L IM). congruence. }
  assert (NDQ := iv_nodup _ _ q I). rewrite E in NDQ.
  assert (MN : ~ In m (a ++ b)) by (apply NoDup_remove_2 in NDQ; auto).
  assert (SUB : forall x, In x (a ++ b) -> In x (f q)) by (intros x X; rewrite E; apply in_or_app; apply in_app_or in X; cbn; tauto).
  assert (SUB' : forall x, x <> m -> In x (f q) -> In x (a ++ b)) by (intros x NX X; rewrite E in X; apply in_or_app; apply in_app_or in X; cbn in X; destruct X as [?|[?|?]]; auto; congruence).
  constructor.
  - intros q' L'. rewrite lf_nq0 in L'. destruct (HT q') as [-> ->]. destruct (Nat.eq_dec q' q) as [->|Nq].
    + rewrite upd_same, CH'. eapply linked_remove with (s := m); eauto.
    + rewrite upd_diff by auto. eapply linked_ext'; [apply (iv_lnk _ _ I q' L')|].
      intros x IX. destruct (iv_lt _ _ I q' x L' IX) as [Lm Qm]. destruct (iv_in_lt _ _ _ _ I L IM). split; [apply SU|apply PR]; intros ->; congruence.
  - intros q' L'. rewrite lf_nq0 in L'. destruct (HT q') as [-> ->]. destruct (Nat.eq_dec q' q) as [->|Nq].
    + rewrite upd_same, CH'. assert (X := NoDup_remove_1 (a' ++ [m1]) (m2 :: b') m). rewrite <- !app_assoc in X. apply X. exact ND.
    + rewrite upd_diff by auto. apply (iv_nd _ _ I q' L').
  - intros q' x L' IX. rewrite lf_nq0 in L'. destruct (HT q') as [H1 H2]. rewrite H1, H2 in IX. rewrite lf_nm0. destruct (lf_old0 x) as (_ & -> & _). destruct (Nat.eq_dec q' q) as [->|Nq].
    + rewrite upd_same in IX. apply (iv_lt _ _ I q x L). cbn in *. destruct IX as [?|IX]; auto. right. apply in_or_app. apply in_app_or in IX. cbn in *. destruct IX; auto.
    + rewrite upd_diff in IX by auto. apply (iv_lt _ _ I q' x L' IX).
  - intros q' L'. rewrite lf_nq0 in L'. destruct (HT q') as [-> ->]. pose proof (iv_end _ _ I q' L') as X.
    destruct (lf_old0 (u_head (qq h q'))) as (-> & _). destruct (lf_old0 (u_tail (qq h q'))) as (-> & _).
    rewrite !lf_comp0; auto; intro C; rewrite <- C in CM; destruct X as (X1 & _ & X2 & _); congruence.
  - intros q' x L' IX. rewrite lf_nq0 in L'. destruct (Nat.eq_dec q' q) as [->|Nq].
    + rewrite upd_same in IX. rewrite lf_comp0; [apply (iv_comp _ _ I q x L); auto|intros ->; auto].
    + rewrite upd_diff in IX by auto. rewrite lf_comp0; [apply (iv_comp _ _ I q' x L'); auto|intros ->; auto].
  - intros x c' Lm Cm. rewrite lf_nm0 in Lm. rewrite lf_nq0. destruct (lf_old0 x) as (_ & -> & _). destruct (Nat.eq_dec x m) as [->|Nm]; [congruence|].
    rewrite lf_comp0 in Cm by auto. destruct (iv_live _ _ I x c') as [X1 X2]; auto. split; auto.
    destruct (Nat.eq_dec (m_q (mm h x)) q) as [Q3|Nq].
    + rewrite Q3, upd_same. rewrite Q3 in X2. auto.
    + rewrite upd_diff; auto.
  - intros q' L'. rewrite lf_nq0 in L'. destruct (Nat.eq_dec q' q) as [->|Nq].
    + rewrite lf_q0, upd_same. cbn. rewrite (iv_len _ _ I q L), E, !app_length. cbn. lia.
    + rewrite lf_qo0, upd_diff by auto. apply (iv_len _ _ I q' L').
  - intros c' q' x. unfold member. rewrite lf_mb0, lf_nq0. pose proof (iv_mb _ _ I c' q' x) as X. unfold member in X.
    destruct (Nat.eq_dec c' c) as [->|Nc].
    + rewrite upd_same. destruct (Nat.eq_dec q' q) as [->|Nq].
      * rewrite alookup_adel_same, upd_same. split; [discriminate|]. intros (_ & IX & CX). exfalso.
        assert (Nx : x <> m) by (intros ->; auto). rewrite lf_comp0 in CX by auto. apply Nx. apply (iv_uniq h f c q x m I L); auto.
      * rewrite alookup_adel_diff by auto. rewrite upd_diff by auto. rewrite X.
        split; intros (A1 & A2 & A3); assert (Nx : x <> m) by (intros ->; auto); (split; [auto|split; [auto|]]); [rewrite lf_comp0|rewrite lf_comp0 in A3]; auto.
    + rewrite upd_diff by auto. rewrite X. destruct (Nat.eq_dec x m) as [->|Nm].
      * split; intros (A1 & A2 & A3); exfalso; congruence.
      * rewrite lf_comp0 by auto. destruct (Nat.eq_dec q' q) as [->|Nq]; [|rewrite upd_diff by auto; tauto].
        rewrite upd_same. split; intros (A1 & A2 & A3); auto.
  - intro c'. rewrite lf_mb0. destruct (Nat.eq_dec c' c) as [->|Nc]; [rewrite upd_same; apply NoDup_adel; apply (iv_keys _ _ I)|rewrite upd_diff by auto; apply (iv_keys _ _ I)].
  - intros q' L'. rewrite lf_nq0 in L'. rewrite upd_diff by lia. apply (iv_nil _ _ I); auto.
Qed.

(** *** changing a priority *)
Lemma chain_sc : forall M hd tl l a m b, linked M (hd :: l ++ [tl]) -> l = a ++ m :: b -> m_succ (M m) = Some (fst_or b tl).
Proof.
  intros M hd tl l a m b LK E. destruct (split_first b tl) as [b' Eb].
  apply (LK m (fst_or b tl)). subst l. rewrite <- app_assoc. cbn [app]. rewrite Eb. rewrite app_comm_cons. apply adj_mid. auto.
Qed.
Lemma chain_at : forall M hd tl a b, linked M (hd :: (a ++ b) ++ [tl]) -> m_succ (M (lst_or a hd)) = Some (fst_or b tl) /\ m_pred (M (fst_or b tl)) = Some (lst_or a hd).
Proof.
  intros M hd tl a b LK. destruct (split_last a hd) as [a' Ea]. destruct (split_first b tl) as [b' Eb].
  apply LK. rewrite <- app_assoc, Eb, app_comm_cons, Ea, <- app_assoc. cbn [app]. apply adj_mid. auto.
Qed.
Lemma forth_ok : forall h hd tl l p, linked (mm h) (hd :: l ++ [tl]) -> ~ In tl l -> forall b a fuel, l = a ++ b -> (length b < fuel)%nat ->
  exists x y, b = x ++ y /\ (forall z, In z x -> xle (m_prio (mm h z)) p) /\ (forall z y', y = z :: y' -> xlt p (m_prio (mm h z))) /\ forth fuel tl p (fst_or b tl) h = Rok (fst_or y tl).
Proof.
  intros h hd tl l p LK NT. induction b as [|m b IH]; intros a fuel E Lt; (destruct fuel as [|fuel]; [lia|]).
  - exists [], []. cbn. rewrite Nat.eqb_refl. cbn. split; [auto|split; [tauto|split; [discriminate|auto]]].
  - cbn [forth fst_or]. destruct (Nat.eqb_spec m tl) as [C|_]; [exfalso; apply NT; rewrite <- C, E; apply in_or_app; cbn; auto|].
    cbn [orb]. destruct (xleb (m_prio (mm h m)) p) eqn:X; cbn [negb].
    + unfold sc. rewrite (chain_sc _ _ _ _ _ _ _ LK E). cbn [rbind].
      destruct (IH (a ++ [m]) fuel) as (x & y & E1 & E2 & E3 & E4); [rewrite E, <- app_assoc; reflexivity|cbn in Lt; lia|].
      exists (m :: x), y. split; [cbn; congruence|]. split; [|auto]. intros z [->|Z]; auto. now apply xleb_iff.
    + exists [], (m :: b). split; [auto|]. split; [cbn; tauto|]. split; [|reflexivity]. intros z y' Z. inversion Z; subst. now apply xleb_false_iff.
Qed.
Definition q_touch (v : qu) : qu := w_touch (touch_all (u_touch v)) v.
Record moved (h h' : heap) (q m : nat) (p : xq) : Prop := {
  mv_nm : nm h' = nm h; mv_nq : nq h' = nq h; mv_ck : ck h' = ck h; mv_its : its h' = its h; mv_ni : ni h' = ni h;
  mv_old : forall x, m_comp (mm h' x) = m_comp (mm h x) /\ m_q (mm h' x) = m_q (mm h x) /\ m_time (mm h' x) = m_time (mm h x);
  mv_prio : forall x, x <> m -> m_prio (mm h' x) = m_prio (mm h x);
  mv_new : m_prio (mm h' m) = p;
  mv_q : qq h' q = q_touch (qq h q);
  mv_qo : forall q', q' <> q -> qq h' q' = qq h q';
  mv_mb : mb h' = mb h
}.
Lemma prio_none : forall h c q p, member c q h = None -> set_prio c q p h = (h, Rer EValue).
Proof. intros h c q p N. unfold set_prio, hbind, check_in. rewrite N. reflexivity. Qed.
Lemma prio_same : forall h c q p m, member c q h = Some m -> xeqb p (m_prio (mm h m)) = true -> set_prio c q p h = (h, Rok tt).
Proof. intros h c q p m N X. unfold set_prio, hbind, check_in, rd. rewrite N, X. reflexivity. Qed.

Lemma prio_ok : forall h f q a m b c p, Inv h f -> (q < nq h)%nat -> f q = a ++ m :: b -> m_comp (mm h m) = Some c -> xeqb p (m_prio (mm h m)) = false ->
  exists h' x y, set_prio c q p h = (h', Rok tt) /\ moved h h' q m p /\ a ++ b = x ++ y /\ (forall z, In z x -> xle (m_prio (mm h z)) p) /\ (forall z y', y = z :: y' -> xlt p (m_prio (mm h z))) /\ Inv h' (upd f q (x ++ m :: y)).
Proof.
  intros h f q a m b c p I L E CM NE.
  assert (IM : In m (f q)) by (rewrite E; apply in_or_app; cbn; auto).
  assert (MB : member c q h = Some m) by (apply (iv_mb _ _ I); auto).
  unfold set_prio, hbind, check_in. rewrite MB. unfold rd. rewrite NE.
  rewrite (pd_in h f q a m b I L E), (sc_in h f q a m b I L E). unfold hput.
  destruct (split_last a (u_head (qq h q))) as [a' Ea]. destruct (split_first b (u_tail (qq h q))) as [b' Eb].
  set (m2 := fst_or b (u_tail (qq h q))) in *. set (m1 := lst_or a (u_head (qq h q))) in *.
  assert (CH : u_head (qq h q) :: f q ++ [u_tail (qq h q)] = a' ++ m1 :: m :: m2 :: b').
  { rewrite E, <- app_assoc. cbn [app]. rewrite Eb, app_comm_cons, Ea, <- app_assoc. reflexivity. }
  assert (CH' : u_head (qq h q) :: (a ++ b) ++ [u_tail (qq h q)] = a' ++ m1 :: m2 :: b').
  { rewrite <- app_assoc. rewrite Eb. rewrite app_comm_cons, Ea, <- app_assoc. reflexivity. }
  pose proof (iv_nd _ _ I q L) as ND. pose proof (iv_lnk _ _ I q L) as LK.
  assert (BD := fun m => iv_lt _ _ I q m L). rewrite CH in ND, LK, BD.
  assert (I1 : In m1 (a' ++ m1 :: m :: m2 :: b')) by (apply in_or_app; cbn; auto).
  assert (I2 : In m2 (a' ++ m1 :: m :: m2 :: b')) by (apply in_or_app; cbn; auto).
  pose proof (proj1 (nodup_app _ _ _) ND) as (_ & N & _).
  assert (N1 : m1 <> m) by (intro C; rewrite C in N; inversion N; cbn in *; tauto).
  assert (N12 : m1 <> m2) by (intro C; rewrite C in N; inversion N; cbn in *; tauto).
  assert (N2 : m2 <> m) by (intro C; rewrite C in N; inversion N as [|? ? ? N']; subst; inversion N'; cbn in *; tauto). clear N.
  clearbody m1 m2.
  match goal with |- context [forth _ _ _ _ ?x] => set (h1 := x) end.
  assert (K1 : nm h1 = nm h /\ nq h1 = nq h /\ qq h1 = qq h /\ ck h1 = ck h /\ its h1 = its h /\ ni h1 = ni h /\ mb h1 = mb h) by (unfold h1; cbn; tauto).
  assert (K2 : forall x, m_comp (mm h1 x) = m_comp (mm h x) /\ m_q (mm h1 x) = m_q (mm h x) /\ m_time (mm h1 x) = m_time (mm h x) /\ m_prio (mm h1 x) = m_prio (mm h x)).
  { intro x. unfold h1. cbn [mm nm qq nq mb ck its ni set_m set_q set_mb]. upc; subst; cbn; auto; try congruence. }
  assert (SU : forall x, x <> m -> x <> m1 -> m_succ (mm h1 x) = m_succ (mm h x)).
  { intros x X1 X2. unfold h1. cbn [mm nm qq nq mb ck its ni set_m set_q set_mb]. upc; subst; cbn; auto; try congruence. }
  assert (PR : forall x, x <> m -> x <> m2 -> m_pred (mm h1 x) = m_pred (mm h x)).
  { intros x X1 X2. unfold h1. cbn [mm nm qq nq mb ck its ni set_m set_q set_mb]. upc; subst; cbn; auto; try congruence. }
  assert (E1 : m_succ (mm h1 m1) = Some m2) by (unfold h1; cbn [mm nm qq nq mb ck its ni set_m set_q set_mb]; ups; reflexivity).
  assert (E2 : m_pred (mm h1 m2) = Some m1) by (unfold h1; cbn [mm nm qq nq mb ck its ni set_m set_q set_mb]; ups; reflexivity).
  assert (LK1 : linked (mm h1) (u_head (qq h q) :: (a ++ b) ++ [u_tail (qq h q)])) by (rewrite CH'; eapply linked_remove with (s := m); eauto).
  assert (LKO : forall q', (q' < nq h)%nat -> q' <> q -> linked (mm h1) (u_head (qq h q') :: f q' ++ [u_tail (qq h q')])).
  { intros q' L' Nq. eapply linked_ext'; [apply (iv_lnk _ _ I q' L')|].
    intros x IX. destruct (iv_lt _ _ I q' x L' IX) as [Lm Qm]. destruct (iv_in_lt _ _ _ _ I L IM). destruct (BD _ I1) as [_ Q1]. destruct (BD _ I2) as [_ Q2]. split; [apply SU|apply PR]; intros ->; congruence. }
  clearbody h1.
  assert (NDQ := iv_nodup _ _ q I). rewrite E in NDQ.
  assert (MN : ~ In m (a ++ b)) by (apply NoDup_remove_2 in NDQ; auto).
  assert (SUB : forall x, In x (a ++ b) -> In x (f q)) by (intros x X; rewrite E; apply in_or_app; apply in_app_or in X; cbn; tauto).
  assert (SUB' : forall x, x <> m -> In x (f q) -> In x (a ++ b)) by (intros x NX X; rewrite E in X; apply in_or_app; apply in_app_or in X; cbn in X; destruct X as [?|[?|?]]; auto; congruence).
  destruct K1 as (Knm & Knq & Kqq & Kck & Kits & Kni & Kmb).
  destruct (iv_head_notin h f q I L) as (NH & NT & NHT).
  assert (SH : sc (u_head (qq h1 q)) h1 = Rok (fst_or (a ++ b) (u_tail (qq h q)))) by (unfold sc; rewrite Kqq; pose proof (proj1 (chain_at _ _ _ [] (a ++ b) LK1)) as X; unfold lst_or in X; cbn [last] in X; rewrite X; reflexivity).
  rewrite SH. cbn [rbind]. rewrite Kqq, Knm.
  destruct (forth_ok h1 _ _ _ p LK1 (fun C => NT (SUB _ C)) (a ++ b) [] (S (nm h)) eq_refl) as (x & y & EXY & PX & PY & FO).
  { pose proof (iv_length h f q I L) as X. rewrite E in X. rewrite app_length in *. cbn in X. lia. }
  rewrite FO. rewrite EXY in LK1. unfold pd. destruct (chain_at _ _ _ x y LK1) as [SX PX']. rewrite PX'.
  destruct (split_last x (u_head (qq h q))) as [x' Ex]. destruct (split_first y (u_tail (qq h q))) as [y' Ey].
  set (n2 := fst_or y (u_tail (qq h q))) in *. set (n1 := lst_or x (u_head (qq h q))) in *.
  clear E1 E2 SU PR SX PX' FO SH.
  eexists. exists x, y. split; [reflexivity|].
  match goal with |- moved h ?z q m p /\ _ => set (h' := z) end.
  assert (CHX : u_head (qq h q) :: (x ++ y) ++ [u_tail (qq h q)] = x' ++ n1 :: n2 :: y') by (rewrite <- app_assoc, Ey, app_comm_cons, Ex, <- app_assoc; reflexivity).
  assert (CHY : u_head (qq h q) :: (x ++ m :: y) ++ [u_tail (qq h q)] = x' ++ n1 :: m :: n2 :: y').
  { rewrite <- app_assoc. cbn [app]. rewrite Ey. rewrite app_comm_cons, Ex, <- app_assoc. reflexivity. }
  rewrite CHX in LK1.
  assert (NDX : NoDup (x' ++ n1 :: n2 :: y')).
  { rewrite <- CHX, <- EXY, CH'. assert (X := NoDup_remove_1 (a' ++ [m1]) (m2 :: b') m). rewrite <- !app_assoc in X. apply X. exact ND. }
  assert (INX : forall z, In z (x' ++ n1 :: n2 :: y') -> z <> m /\ In z (a' ++ m1 :: m :: m2 :: b')).
  { intros z Z. rewrite <- CHX, <- EXY, CH' in Z. split.
    - intros ->. apply (NoDup_remove_2 (a' ++ [m1]) (m2 :: b') m); rewrite <- !app_assoc; auto.
    - apply in_or_app. apply in_app_or in Z. cbn in *. tauto. }
  assert (J1 : In n1 (x' ++ n1 :: n2 :: y')) by (apply in_or_app; cbn; auto).
  assert (J2 : In n2 (x' ++ n1 :: n2 :: y')) by (apply in_or_app; cbn; auto).
  destruct (INX _ J1) as [M1 J1']. destruct (INX _ J2) as [M2 J2'].
  assert (M12 : n1 <> n2). { pose proof (proj1 (nodup_app _ _ _) NDX) as (_ & N & _). intro C; rewrite C in N; inversion N; cbn in *; tauto. }
  clearbody n1 n2.
  assert (MV : moved h h' q m p).
  { unfold h'. constructor; cbn [mm nm qq nq mb ck its ni set_m set_q set_mb]; auto.
    - intro z. destruct (K2 z) as (<- & <- & <- & _). upc; subst; cbn; auto; try congruence.
    - intros z NZ. destruct (K2 z) as (_ & _ & _ & <-). upc; subst; cbn; auto; try congruence.
    - ups. reflexivity.
    - rewrite Kqq. ups. reflexivity.
    - intros q' Nq. ups. rewrite Kqq. reflexivity. }
  assert (SU : forall z, z <> m -> z <> n1 -> m_succ (mm h' z) = m_succ (mm h1 z)).
  { intros z X1 X2. unfold h'. cbn [mm nm qq nq mb ck its ni set_m set_q set_mb]. upc; subst; cbn; auto; try congruence. }
  assert (PR : forall z, z <> m -> z <> n2 -> m_pred (mm h' z) = m_pred (mm h1 z)).
  { intros z X1 X2. unfold h'. cbn [mm nm qq nq mb ck its ni set_m set_q set_mb]. upc; subst; cbn; auto; try congruence. }
  assert (E1 : m_succ (mm h' n1) = Some m) by (unfold h'; cbn [mm nm qq nq mb ck its ni set_m set_q set_mb]; ups; reflexivity).
  assert (E2 : m_pred (mm h' m) = Some n1) by (unfold h'; cbn [mm nm qq nq mb ck its ni set_m set_q set_mb]; ups; reflexivity).
  assert (E3 : m_succ (mm h' m) = Some n2) by (unfold h'; cbn [mm nm qq nq mb ck its ni set_m set_q set_mb]; ups; reflexivity).
  assert (E4 : m_pred (mm h' n2) = Some m) by (unfold h'; cbn [mm nm qq nq mb ck its ni set_m set_q set_mb]; ups; reflexivity).
  clearbody h'.
  split; [exact MV|]. split; [exact EXY|]. split; [intros z Z; destruct (K2 z) as (_ & _ & _ & <-); auto|].
  split; [intros z y0 Z; destruct (K2 z) as (_ & _ & _ & <-); eauto|].
  destruct MV.
  assert (HT : forall q', u_head (qq h' q') = u_head (qq h q') /\ u_tail (qq h' q') = u_tail (qq h q') /\ u_len (qq h' q') = u_len (qq h q')).
  { intro q'. destruct (Nat.eq_dec q' q) as [->|Nq]; [rewrite mv_q0; cbn; auto|rewrite mv_qo0; auto]. }
  assert (SAME : forall q' z, In z (upd f q (x ++ m :: y) q') <-> In z (f q')).
  { intros q' z. destruct (Nat.eq_dec q' q) as [->|Nq]; [|rewrite upd_diff by auto; tauto]. rewrite upd_same.
    assert (X : In z (x ++ m :: y) <-> z = m \/ In z (x ++ y)) by (rewrite !in_app_iff; cbn; intuition).
    rewrite X, <- EXY. split; [intros [->|Z]; auto|]. intro Z. destruct (Nat.eq_dec z m); auto. }
  assert (NDY : NoDup (x' ++ n1 :: m :: n2 :: y')).
  { pose proof (proj1 (nodup_mid _ _ _ _ _) NDX) as (X1 & X2 & X3). apply nodup_mid. split; [auto|]. split.
    - constructor; auto. intro C. apply (proj1 (INX m ltac:(apply in_or_app; right; cbn in *; tauto))). reflexivity.
    - intros z Z1 [<-|Z2]; [|eauto]. apply (proj1 (INX m ltac:(apply in_or_app; apply in_app_or in Z1; cbn in *; tauto))). reflexivity. }
  constructor.
  - intros q' L'. rewrite mv_nq0 in L'. destruct (HT q') as (-> & -> & _). destruct (Nat.eq_dec q' q) as [->|Nq].
    + rewrite upd_same, CHY. eapply linked_insert; eauto. intro C. apply INX in C. tauto.
    + rewrite upd_diff by auto. eapply linked_ext'; [apply (LKO q' L' Nq)|].
      intros z IX. destruct (iv_lt _ _ I q' z L' IX) as [Lm Qm]. destruct (iv_in_lt _ _ _ _ I L IM). destruct (BD _ J1') as [_ Q1]. destruct (BD _ J2') as [_ Q2]. split; [apply SU|apply PR]; intros ->; congruence.
  - intros q' L'. rewrite mv_nq0 in L'. destruct (HT q') as (-> & -> & _). destruct (Nat.eq_dec q' q) as [->|Nq].
    + rewrite upd_same, CHY. exact NDY.
    + rewrite upd_diff by auto. apply (iv_nd _ _ I q' L').
  - intros q' z L' IX. rewrite mv_nq0 in L'. destruct (HT q') as (H1 & H2 & _). rewrite H1, H2 in IX. rewrite mv_nm0. destruct (mv_old0 z) as (_ & -> & _).
    apply (iv_lt _ _ I q' z L'). cbn [In] in *. rewrite in_app_iff in *. rewrite SAME in IX. tauto.
  - intros q' L'. rewrite mv_nq0 in L'. destruct (HT q') as (-> & -> & _). pose proof (iv_end _ _ I q' L') as X.
    destruct (mv_old0 (u_head (qq h q'))) as (-> & _). destruct (mv_old0 (u_tail (qq h q'))) as (-> & _).
    rewrite !mv_prio0; auto; intro C; rewrite <- C in CM; destruct X as (X1 & _ & X2 & _); congruence.
  - intros q' z L' IX. rewrite mv_nq0 in L'. destruct (mv_old0 z) as (-> & _). apply SAME in IX. apply (iv_comp _ _ I q' z L' IX).
  - intros z c' Lm Cm. rewrite mv_nm0 in Lm. rewrite mv_nq0. destruct (mv_old0 z) as (X & -> & _). rewrite X in Cm. rewrite SAME. apply (iv_live _ _ I z c'); auto.
  - intros q' L'. rewrite mv_nq0 in L'. destruct (HT q') as (_ & _ & ->). rewrite (iv_len _ _ I q' L'). destruct (Nat.eq_dec q' q) as [->|Nq]; [|rewrite upd_diff; auto].
    rewrite upd_same. f_equal. rewrite E, !app_length. assert (X := f_equal (@length nat) EXY). rewrite !app_length in X. cbn. lia.
  - intros c' q' z. unfold member. rewrite mv_mb0, mv_nq0, SAME. destruct (mv_old0 z) as (-> & _). apply (iv_mb _ _ I c' q' z).
  - intro c'. rewrite mv_mb0. apply (iv_keys _ _ I).
  - intros q' L'. rewrite mv_nq0 in L'. rewrite upd_diff by lia. apply (iv_nil _ _ I); auto.
Qed.
