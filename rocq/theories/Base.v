(** Numbers with infinity, finite maps as functions, small list helpers.
    Python floats are represented by exact rationals; [inf] is [PInf]. *)
From Coq Require Import QArith Lqa List Bool Arith ZArith Lia.
Import ListNotations.
Open Scope Q_scope.

(** ** Rationals *)
Definition Qltb (a b : Q) : bool := negb (Qle_bool b a).

Lemma Qltb_iff : forall a b, Qltb a b = true <-> a < b.
Proof.
  intros a b. unfold Qltb. rewrite negb_true_iff. split; intro H.
  - apply Qnot_le_lt. intro C. apply Qle_bool_iff in C. congruence.
  - destruct (Qle_bool b a) eqn:E; auto. apply Qle_bool_iff in E.
    exfalso. apply (Qlt_not_le _ _ H E).
Qed.

Lemma Qltb_false_iff : forall a b, Qltb a b = false <-> b <= a.
Proof.
  intros a b. unfold Qltb. rewrite negb_false_iff. apply Qle_bool_iff.
Qed.

Lemma Qle_bool_false_iff : forall a b, Qle_bool a b = false <-> b < a.
Proof.
  intros a b. rewrite <- Qltb_iff. unfold Qltb. rewrite negb_true_iff. tauto.
Qed.

(** ** Numbers extended with +inf *)
Inductive xq := Fin (q : Q) | PInf.

Definition xleb (a b : xq) : bool :=
  match a, b with
  | _, PInf => true
  | PInf, Fin _ => false
  | Fin x, Fin y => Qle_bool x y
  end.
Definition xltb (a b : xq) : bool := negb (xleb b a).
Definition xeqb (a b : xq) : bool :=
  match a, b with
  | PInf, PInf => true
  | Fin x, Fin y => Qeq_bool x y
  | _, _ => false
  end.
Definition xadd (a b : xq) : xq :=
  match a, b with Fin x, Fin y => Fin (x + y) | _, _ => PInf end.
(** inf - finite = inf; the second argument is always finite in the code we model *)
Definition xsubq (a : xq) (b : Q) : xq :=
  match a with Fin x => Fin (x - b) | PInf => PInf end.
Definition xaddq (a : xq) (b : Q) : xq :=
  match a with Fin x => Fin (x + b) | PInf => PInf end.

Definition xle (a b : xq) : Prop :=
  match a, b with
  | _, PInf => True
  | PInf, Fin _ => False
  | Fin x, Fin y => x <= y
  end.
Definition xlt (a b : xq) : Prop :=
  match a, b with
  | PInf, _ => False
  | Fin _, PInf => True
  | Fin x, Fin y => x < y
  end.
Definition xeq (a b : xq) : Prop :=
  match a, b with
  | PInf, PInf => True
  | Fin x, Fin y => x == y
  | _, _ => False
  end.

Lemma xleb_iff : forall a b, xleb a b = true <-> xle a b.
Proof.
  intros [x|] [y|]; cbn; try tauto; try (split; [discriminate | tauto]).
  apply Qle_bool_iff.
Qed.

Lemma xltb_iff : forall a b, xltb a b = true <-> xlt a b.
Proof.
  intros [x|] [y|]; unfold xltb; cbn; try tauto; try (split; [discriminate | tauto]).
  apply (Qltb_iff x y).
Qed.

Lemma xltb_false_iff : forall a b, xltb a b = false <-> xle b a.
Proof.
  intros. unfold xltb. rewrite negb_false_iff. apply xleb_iff.
Qed.

Lemma xleb_false_iff : forall a b, xleb a b = false <-> xlt b a.
Proof.
  intros. rewrite <- xltb_iff. unfold xltb. rewrite negb_true_iff. tauto.
Qed.

Lemma xeqb_iff : forall a b, xeqb a b = true <-> xeq a b.
Proof.
  intros [x|] [y|]; cbn; try tauto; try (split; [discriminate | tauto]).
  apply Qeq_bool_iff.
Qed.

Lemma xle_refl : forall a, xle a a.
Proof. intros [x|]; cbn; auto. lra. Qed.
Lemma xle_trans : forall a b c, xle a b -> xle b c -> xle a c.
Proof. intros [x|] [y|] [z|]; cbn; auto; try tauto. intros; lra. Qed.
Lemma xle_total : forall a b, xle a b \/ xle b a.
Proof.
  intros [x|] [y|]; cbn; auto.
  destruct (Qlt_le_dec y x); [right | left]; lra.
Qed.
Lemma xlt_le : forall a b, xlt a b -> xle a b.
Proof. intros [x|] [y|]; cbn; auto; try tauto. intros; lra. Qed.
Lemma xlt_not_le : forall a b, xlt a b <-> ~ xle b a.
Proof.
  intros a b. rewrite <- xltb_iff, <- xleb_iff. unfold xltb.
  destruct (xleb b a); cbn; split; congruence.
Qed.
Lemma xlt_le_trans : forall a b c, xlt a b -> xle b c -> xlt a c.
Proof. intros [x|] [y|] [z|]; cbn; auto; try tauto. intros; lra. Qed.
Lemma xle_lt_trans : forall a b c, xle a b -> xlt b c -> xlt a c.
Proof. intros [x|] [y|] [z|]; cbn; auto; try tauto. intros; lra. Qed.
Lemma xlt_trans : forall a b c, xlt a b -> xlt b c -> xlt a c.
Proof. intros [x|] [y|] [z|]; cbn; auto; try tauto. intros; lra. Qed.
Lemma xle_antisym : forall a b, xle a b -> xle b a -> xeq a b.
Proof. intros [x|] [y|]; cbn; auto; try tauto. intros; lra. Qed.
Lemma xeq_le : forall a b, xeq a b -> xle a b.
Proof. intros [x|] [y|]; cbn; auto; try tauto. intros; lra. Qed.
Lemma xeq_sym : forall a b, xeq a b -> xeq b a.
Proof. intros [x|] [y|]; cbn; auto. intros; lra. Qed.
Lemma xeq_refl : forall a, xeq a a.
Proof. intros [x|]; cbn; auto. lra. Qed.
Lemma xeq_trans : forall a b c, xeq a b -> xeq b c -> xeq a c.
Proof. intros [x|] [y|] [z|]; cbn; auto; try tauto. intros; lra. Qed.
Lemma xlt_irrefl : forall a, ~ xlt a a.
Proof. intros [x|]; cbn; auto. lra. Qed.
Lemma xtri : forall a b, xlt a b \/ xeq a b \/ xlt b a.
Proof.
  intros [x|] [y|]; cbn; auto.
  destruct (Q_dec x y) as [[H|H]|H]; auto.
Qed.

(** ** Finite maps as total functions *)
Definition upd {A} (f : nat -> A) (k : nat) (v : A) : nat -> A :=
  fun x => if Nat.eqb x k then v else f x.

Lemma upd_same : forall A (f : nat -> A) k v, upd f k v k = v.
Proof. intros. unfold upd. now rewrite Nat.eqb_refl. Qed.
Lemma upd_diff : forall A (f : nat -> A) k v x, x <> k -> upd f k v x = f x.
Proof. intros. unfold upd. destruct (Nat.eqb_spec x k); congruence. Qed.

(** ** Association lists (Python OrderedDict with nat keys) *)
Fixpoint alookup {A} (k : nat) (l : list (nat * A)) : option A :=
  match l with
  | [] => None
  | (k', v) :: t => if Nat.eqb k k' then Some v else alookup k t
  end.
(** dict[k] = v : replace in place, or append *)
Fixpoint aset {A} (k : nat) (v : A) (l : list (nat * A)) : list (nat * A) :=
  match l with
  | [] => [(k, v)]
  | (k', v') :: t => if Nat.eqb k k' then (k', v) :: t else (k', v') :: aset k v t
  end.
(** del dict[k] *)
Definition adel {A} (k : nat) (l : list (nat * A)) : list (nat * A) :=
  filter (fun p => negb (Nat.eqb k (fst p))) l.
Definition keys {A} (l : list (nat * A)) : list nat := map fst l.

Lemma alookup_In : forall A k (l : list (nat * A)) v,
  alookup k l = Some v -> In (k, v) l.
Proof.
  induction l as [|[k' v'] t IH]; cbn; intros v H; [discriminate|].
  destruct (Nat.eqb_spec k k').
  - inversion H; subst; auto.
  - auto.
Qed.
Lemma alookup_None : forall A k (l : list (nat * A)),
  alookup k l = None <-> ~ In k (keys l).
Proof.
  induction l as [|[k' v'] t IH]; cbn.
  - tauto.
  - destruct (Nat.eqb_spec k k').
    + subst. split; [discriminate| intro H; exfalso; auto].
    + rewrite IH. firstorder.
Qed.
Lemma alookup_Some_key : forall A k (l : list (nat * A)) v,
  alookup k l = Some v -> In k (keys l).
Proof.
  intros A k l v H. apply alookup_In in H. unfold keys.
  change k with (fst (k, v)). now apply in_map.
Qed.
Lemma alookup_ex : forall A k (l : list (nat * A)),
  In k (keys l) -> exists v, alookup k l = Some v.
Proof.
  intros A k l H. destruct (alookup k l) eqn:E; eauto.
  apply alookup_None in E. tauto.
Qed.
Lemma In_alookup : forall A k (l : list (nat * A)) v,
  NoDup (keys l) -> In (k, v) l -> alookup k l = Some v.
Proof.
  induction l as [|[k' v'] t IH]; cbn; intros v ND H; [tauto|].
  inversion ND; subst. destruct H as [H|H].
  - inversion H; subst. now rewrite Nat.eqb_refl.
  - destruct (Nat.eqb_spec k k').
    + subst. exfalso. apply H2. change k' with (fst (k', v)). now apply in_map.
    + auto.
Qed.

Lemma keys_aset_in : forall A k (v : A) l x,
  In x (keys (aset k v l)) <-> x = k \/ In x (keys l).
Proof.
  induction l as [|[k' v'] t IH]; cbn; intros x.
  - intuition.
  - destruct (Nat.eqb_spec k k'); cbn.
    + subst; intuition.
    + rewrite IH. intuition.
Qed.
Lemma NoDup_aset : forall A k (v : A) l, NoDup (keys l) -> NoDup (keys (aset k v l)).
Proof.
  induction l as [|[k' v'] t IH]; cbn; intros ND.
  - repeat constructor. intros [].
  - destruct (Nat.eqb_spec k k'); cbn; auto.
    inversion ND; subst. constructor; auto.
    intro C. apply keys_aset_in in C. intuition.
Qed.
Lemma alookup_aset_same : forall A k (v : A) l, alookup k (aset k v l) = Some v.
Proof.
  induction l as [|[k' v'] t IH]; cbn.
  - now rewrite Nat.eqb_refl.
  - destruct (Nat.eqb_spec k k'); cbn.
    + subst. now rewrite Nat.eqb_refl.
    + destruct (Nat.eqb_spec k k'); congruence.
Qed.
Lemma alookup_aset_diff : forall A k (v : A) l x, x <> k -> alookup x (aset k v l) = alookup x l.
Proof.
  induction l as [|[k' v'] t IH]; cbn; intros x H.
  - destruct (Nat.eqb_spec x k); congruence.
  - destruct (Nat.eqb_spec k k'); cbn.
    + subst. destruct (Nat.eqb_spec x k'); congruence.
    + destruct (Nat.eqb_spec x k'); auto.
Qed.
Lemma keys_adel_in : forall A k (l : list (nat * A)) x,
  In x (keys (adel k l)) <-> x <> k /\ In x (keys l).
Proof.
  intros A k l x. unfold keys, adel. rewrite !in_map_iff. split.
  - intros [[a b] [E H]]. cbn in E; subst. apply filter_In in H. cbn in H.
    destruct H as [H1 H2]. apply negb_true_iff, Nat.eqb_neq in H2.
    split; [congruence|]. exists (x, b); auto.
  - intros [N [[a b] [E H]]]. cbn in E; subst. exists (x, b). split; auto.
    apply filter_In; split; auto. cbn. apply negb_true_iff, Nat.eqb_neq. congruence.
Qed.
Lemma NoDup_keys_filter : forall A (f : nat * A -> bool) l, NoDup (keys l) -> NoDup (keys (filter f l)).
Proof.
  induction l as [|[k v] t IH]; cbn; intros ND; auto.
  inversion ND; subst. destruct (f (k, v)); cbn; auto.
  constructor; auto. intro H. apply H1. unfold keys in *.
  apply in_map_iff in H. destruct H as [[a b] [E H]]. cbn in E; subst.
  apply filter_In in H. destruct H as [H _]. change k with (fst (k, b)). now apply in_map.
Qed.
Lemma NoDup_adel : forall A k (l : list (nat * A)), NoDup (keys l) -> NoDup (keys (adel k l)).
Proof. intros. now apply NoDup_keys_filter. Qed.
Lemma alookup_adel_same : forall A k (l : list (nat * A)), alookup k (adel k l) = None.
Proof.
  intros. apply alookup_None. rewrite keys_adel_in. tauto.
Qed.
Lemma alookup_adel_diff : forall A k (l : list (nat * A)) x, x <> k -> alookup x (adel k l) = alookup x l.
Proof.
  induction l as [|[k' v'] t IH]; cbn; intros x H; auto.
  destruct (Nat.eqb_spec k k'); cbn.
  - subst. destruct (Nat.eqb_spec x k'); [congruence|]. now apply IH.
  - destruct (Nat.eqb_spec x k'); auto.
Qed.

(** ** Sums of rationals *)
Fixpoint sumQ (l : list Q) : Q :=
  match l with [] => 0 | x :: t => x + sumQ t end.

Lemma sumQ_app : forall a b, sumQ (a ++ b) == sumQ a + sumQ b.
Proof. induction a; cbn; intros; [lra|]. rewrite IHa. lra. Qed.

Definition memb (x : nat) (l : list nat) : bool := existsb (Nat.eqb x) l.
Lemma memb_iff : forall x l, memb x l = true <-> In x l.
Proof.
  intros. unfold memb. rewrite existsb_exists. split.
  - intros [y [H1 H2]]. apply Nat.eqb_eq in H2. congruence.
  - intros H. exists x. split; auto. apply Nat.eqb_refl.
Qed.
Lemma memb_false_iff : forall x l, memb x l = false <-> ~ In x l.
Proof.
  intros. rewrite <- memb_iff. destruct (memb x l); split; congruence.
Qed.
