(** Period monitors: how the histories of the monitors per period follow from that of the parent. *)
From Coq Require Import QArith Lqa List Bool Arith ZArith Lia.
From Verif Require Import Base Util Mon MonSpec MonP MonQ MonR Period.
Import ListNotations.
Open Scope Q_scope.

(** ** Specification *)
(** the a-th period (of any kind) starts at [begins periods t0 a]; the periods are repeated for ever *)
Fixpoint begins (periods : list Q) (t0 : Q) (a : nat) : Q :=
  match a with O => t0 | S a => begins periods t0 a + nth (a mod length periods) periods 0 end.
(** period a is of kind j: it is one that the j-th monitor is for *)
Definition kind (periods : list Q) (a j : nat) : Prop := (a mod length periods = j)%nat.
(** of a list of numbered things those with numbers of kind j *)
Fixpoint pick {A} (n j : nat) (ls : list nat) (l : list A) : list A :=
  match ls, l with a :: ls, x :: l => if Nat.eqb (a mod n) j then x :: pick n j ls l else pick n j ls l | _, _ => [] end.
(** the happenings in a history that were tallied (the last one first) with the numbers of the periods in which that was. What was tallied before the
    first period has no number. *)
Inductive numbered (periods : list Q) (t0 : Q) : list nat -> list (Q * val * Q) -> Prop :=
| nu_rest : forall l, (forall t x w, In (t, x, w) l -> t <= t0) -> numbered periods t0 [] l
| nu_cons : forall a ls t x w l, begins periods t0 a <= t <= begins periods t0 (S a) -> (forall b, In b ls -> (b <= a)%nat) -> numbered periods t0 ls l ->
    numbered periods t0 (a :: ls) ((t, x, w) :: l).
(** sums over the first n numbers *)
Fixpoint upto (n : nat) (f : nat -> Q) : Q := match n with O => 0 | S n => upto n f + f n end.

(** ** Lemmas *)
Lemma upto_ext : forall n f g, (forall j, (j < n)%nat -> f j == g j) -> upto n f == upto n g.
Proof. induction n; intros f g H; cbn; [lra|]. rewrite (IHn f g), (H n) by auto. lra. Qed.
Lemma upto_zero : forall n f, (forall j, (j < n)%nat -> f j == 0) -> upto n f == 0.
Proof. induction n; intros f H; cbn; [lra|]. rewrite IHn, H by auto. lra. Qed.
Lemma upto_one : forall n f g i d, (i < n)%nat -> (forall j, (j < n)%nat -> j <> i -> f j == g j) -> f i == g i + d -> upto n f == upto n g + d.
Proof.
  induction n; intros f g i d L H E; [lia|]. cbn. destruct (Nat.eq_dec i n) as [->|N].
  - rewrite (upto_ext n f g), E by (intros; apply H; lia). lra.
  - rewrite (IHn f g i d), (H n) by (auto; lia). lra.
Qed.
Lemma integral_off : forall g h e e', on_of h = false -> integral g h e == integral g h e'.
Proof. intros g [|[s x] r] e e' O; cbn [integral]; [lra|]. rewrite O. lra. Qed.
Lemma integral_on : forall g h e e', h <> [] -> on_of h = true -> integral g h e == integral g h e' + g (value_of h) * (e - e').
Proof. intros g [|[s x] r] e e' N O; [contradiction|]. cbn [integral]. rewrite O. lra. Qed.

Section P.
Variable ps : list Q.
Variable t0 : Q.
Hypothesis Pne : ps <> [].
Hypothesis Ppos : forall d, In d ps -> 0 <= d.
Notation T := (begins ps t0).
Notation n := (length ps).

Lemma n_pos : (0 < n)%nat.
Proof. destruct ps; [contradiction|]. cbn. lia. Qed.
Lemma mod_lt : forall a, (a mod n < n)%nat.
Proof. intros. apply Nat.mod_upper_bound. pose proof n_pos. lia. Qed.
Lemma T_S : forall a, T a <= T (S a).
Proof. intros a. cbn [begins]. pose proof (Ppos _ (nth_In ps 0 (mod_lt a))). lra. Qed.
Lemma T_mono : forall a b, (a <= b)%nat -> T a <= T b.
Proof. intros a b L. induction L; [lra|]. pose proof (T_S m). lra. Qed.

(** in the view of the monitors after k changes: t is in a period of kind j; the last one has not ended yet *)
Definition cov (k j : nat) (t : Q) : Prop := exists a, (a < k)%nat /\ (a mod n = j)%nat /\ T a <= t /\ ((S a < k)%nat -> t < T (S a)).
Lemma cov_now : forall k j t, cov (S k) j t -> T k <= t -> j = (k mod n)%nat.
Proof.
  intros k j t (a & A & B & C & D) L. destruct (Nat.eq_dec a k) as [->|N]; [congruence|].
  assert (H : t < T (S a)) by (apply D; lia). pose proof (T_mono (S a) k). assert (T (S a) <= T k) by (apply H0; lia). lra.
Qed.
Lemma cov_last : forall k t, T k <= t -> cov (S k) (k mod n) t.
Proof. intros k t L. exists k. repeat split; auto; lia. Qed.
Lemma cov_next : forall k j t, t < T k -> (cov (S k) j t <-> cov k j t).
Proof.
  intros k j t L. split; intros (a & A & B & C & D).
  - assert (N : a <> k) by (intros ->; lra). exists a. split; [lia|]. split; [auto|]. split; [auto|]. intros H. apply D. lia.
  - exists a. split; [lia|]. split; [auto|]. split; [auto|]. intros H. destruct (Nat.eq_dec (S a) k) as [E|N]; [rewrite E; auto | apply D; lia].
Qed.
Lemma cov_0 : forall j t, ~ cov 0 j t.
Proof. intros j t (a & A & _). lia. Qed.

Definition cur_of (k : nat) : nat := match k with O => O | S k => k mod n end.
Lemma cur_lt : forall k, (cur_of k < n)%nat.
Proof. intros [|k]; [apply n_pos | apply mod_lt]. Qed.
(** which of the monitors is on *)
Definition is_on (k j : nat) : bool := match k with O => false | S k => Nat.eqb j (k mod n) end.

(** the relation between the history of the parent and those of the monitors per period *)
Record PH (now : Q) (k : nat) (h : hist) (hs : nat -> hist) : Prop := {
  ph_ne : h <> []; ph_on : on_of h = true;
  ph_ons : forall j, (j < n)%nat -> on_of (hs j) = is_on k j;
  ph_now : match k with O => now == t0 | S k => T k <= now end; ph_next : now <= T k }.
(** for level monitors *)
Record PL (now : Q) (k : nat) (h : hist) (hs : nat -> hist) : Prop := {
  pl_val : forall j, (j < n)%nat -> is_on k j = true -> value_of (hs j) = value_of h;
  pl_in : forall j t, (j < n)%nat -> cov k j t -> level_at (hs j) t = level_at h t;
  pl_out : forall j t, (j < n)%nat -> ~ cov k j t -> level_at (hs j) t = None;
  pl_int : match k with
           | O => forall g, (forall j e, (j < n)%nat -> integral g (hs j) e == 0) /\ (t0 <= start_of h -> forall e, integral g h e == g (value_of h) * (e - t0))
           | S _ => exists L, (forall g, t0 <= start_of h -> L g == 0) /\ forall g e, integral g h e == L g + upto n (fun j => integral g (hs j) e)
           end }.
(** for other monitors *)
Record PN (now : Q) (k : nat) (h : hist) (hs : nat -> hist) : Prop := {
  pn_seen : exists ls, numbered ps t0 ls (seen h) /\ (forall a, In a ls -> (a < k)%nat) /\ forall j, (j < n)%nat -> seen (hs j) = pick n j ls (seen h) }.

Definition upd (i : nat) (x : hist) (hs : nat -> hist) : nat -> hist := fun j => if Nat.eqb j i then x else hs j.
Lemma upd_same : forall i x hs, upd i x hs i = x. Proof. intros. unfold upd. rewrite Nat.eqb_refl. auto. Qed.
Lemma upd_diff : forall i j x hs, j <> i -> upd i x hs j = hs j. Proof. intros. unfold upd. destruct (Nat.eqb_spec j i); congruence. Qed.

Lemma is_on_cur : forall k j, is_on (S k) j = true <-> j = (k mod n)%nat.
Proof. intros. cbn. apply Nat.eqb_eq. Qed.

(** a tally *)
Lemma ph_tally : forall now k h hs x w, PH now k h hs -> PH now k ((now, HTally x w) :: h) (upd (cur_of k) ((now, HTally x w) :: hs (cur_of k)) hs).
Proof.
  intros now k h hs x w [A B C D E]. constructor; auto; [discriminate|]. intros j J. unfold upd. destruct (Nat.eqb_spec j (cur_of k)) as [->|N]; cbn [on_of]; auto.
Qed.
Lemma level_cons : forall now e r t, starts e = false -> level_at ((now, e) :: r) t = if Qle_bool now t then (if on_of ((now, e) :: r) then Some (value_of ((now, e) :: r)) else None) else level_at r t.
Proof. intros now e r t S. cbn [level_at]. rewrite S. auto. Qed.
Lemma pl_tally : forall now k h hs x w, PH now k h hs -> PL now k h hs -> PL now k ((now, HTally x w) :: h) (upd (cur_of k) ((now, HTally x w) :: hs (cur_of k)) hs).
Proof.
  intros now k h hs x w H [V I O N]. pose proof (cur_lt k) as CL. constructor.
  - intros j J S. destruct k as [|k]; [discriminate|]. apply is_on_cur in S. subst j. cbn [cur_of]. rewrite upd_same. auto.
  - intros j t J C. destruct k as [|k]; [destruct (cov_0 _ _ C)|]. cbn [cur_of]. rewrite (level_cons now (HTally x w) h) by auto. cbn [on_of value_of]. rewrite (ph_on _ _ _ _ H).
    destruct (Qle_bool now t) eqn:Q.
    + apply Qle_bool_iff in Q. pose proof (ph_now _ _ _ _ H) as PN0. cbn in PN0. assert (j = (k mod n)%nat) as -> by (apply (cov_now k j t); auto; lra).
      rewrite upd_same, level_cons by auto. cbn [on_of value_of]. rewrite (ph_ons _ _ _ _ H), (proj2 (is_on_cur k _) eq_refl) by auto. rewrite (proj2 (Qle_bool_iff _ _) Q). auto.
    + destruct (Nat.eq_dec j (k mod n)) as [->|D].
      * rewrite upd_same, level_cons by auto. rewrite Q. apply I; auto.
      * rewrite upd_diff by auto. apply I; auto.
  - intros j t J C. destruct (Nat.eq_dec j (cur_of k)) as [->|D]; [|rewrite upd_diff by auto; apply O; auto].
    rewrite upd_same, level_cons by auto. cbn [on_of value_of]. rewrite (ph_ons _ _ _ _ H) by auto. destruct (Qle_bool now t) eqn:Q; [|apply O; auto].
    destruct k as [|k]; [reflexivity|]. exfalso. apply C. cbn [cur_of]. apply cov_last. pose proof (ph_now _ _ _ _ H). cbn in H0. apply Qle_bool_iff in Q. lra.
  - destruct k as [|k].
    + intros g. destruct (N g) as (N1 & N2). pose proof (ph_now _ _ _ _ H) as PN0. cbn in PN0. split.
      * intros j e J. cbn [cur_of]. destruct (Nat.eq_dec j 0) as [->|D]; [|rewrite upd_diff by auto; auto].
        rewrite upd_same. cbn [integral on_of starts]. rewrite (ph_ons _ _ _ _ H) by auto. cbn [is_on]. rewrite N1 by auto. lra.
      * cbn [start_of starts integral on_of value_of]. rewrite (ph_on _ _ _ _ H). intros S e. rewrite (N2 S now), PN0. ring.
    + destruct N as (L & L0 & LE). exists L. split; [exact L0|]. intros g e. cbn [integral starts on_of value_of]. rewrite (ph_on _ _ _ _ H), (LE g now). cbn [cur_of].
      rewrite (upto_one n (fun j => integral g (upd (k mod n) ((now, HTally x w) :: hs (k mod n)) hs j) e) (fun j => integral g (hs j) now) (k mod n) (g x * (e - now))); [lra | apply mod_lt | |]; cbv beta.
      * intros j J D. rewrite upd_diff by auto. apply integral_off. rewrite (ph_ons _ _ _ _ H) by auto. cbn. apply Nat.eqb_neq. auto.
      * rewrite upd_same. cbn [integral starts on_of value_of]. rewrite (ph_ons _ _ _ _ H) by auto. rewrite (proj2 (is_on_cur k _) eq_refl). lra.
Qed.
Lemma pn_tally : forall now k h hs x w, PH now k h hs -> PN now k h hs -> PN now k ((now, HTally x w) :: h) (upd (cur_of k) ((now, HTally x w) :: hs (cur_of k)) hs).
Proof.
  intros now k h hs x w H [(ls & A & B & C)]. pose proof (cur_lt k) as CL. constructor. cbn [seen]. rewrite (ph_on _ _ _ _ H).
  pose proof (ph_now _ _ _ _ H) as PN0. destruct k as [|k].
  - exists []. assert (ls = []) as -> by (destruct ls as [|b ls]; auto; specialize (B b (or_introl eq_refl)); lia).
    split; [|split; [intros ? []|]].
    + constructor. intros t y z [E|E]; [injection E as <- <- <-; lra|]. inversion A; subst. eauto.
    + intros j J. cbn [cur_of pick]. destruct (Nat.eq_dec j 0) as [->|D]; [|rewrite upd_diff by auto; apply (C j J)].
      rewrite upd_same. cbn [seen]. rewrite (ph_ons _ _ _ _ H) by auto. cbn [is_on]. apply (C 0%nat J).
  - exists (k :: ls). split; [|split].
    + constructor; auto. split; [exact PN0 | apply (ph_next _ _ _ _ H)]. intros b I. specialize (B b I). lia.
    + intros a [<-|I]; auto.
    + intros j J. cbn [cur_of pick]. destruct (Nat.eqb_spec (k mod n) j) as [<-|D].
      * rewrite upd_same. cbn [seen]. rewrite (ph_ons _ _ _ _ H), (proj2 (is_on_cur k _) eq_refl) by auto. rewrite C by auto. auto.
      * rewrite upd_diff by auto. auto.
Qed.

(** a reset of everything; [e]: what happens to the parent *)
Lemma ph_reset : forall now k h hs mo, PH now k h hs -> mo <> Some false -> PH now k ((now, HReset mo) :: h) (fun j => (now, HReset None) :: hs j).
Proof.
  intros now k h hs mo [A B C D E] M. constructor; auto; [discriminate|]. cbn [on_of]. destruct mo as [[]|]; auto.
Qed.
Lemma level_start : forall now e r t, starts e = true -> level_at ((now, e) :: r) t = if Qle_bool now t then (if on_of ((now, e) :: r) then Some (value_of ((now, e) :: r)) else None) else None.
Proof. intros now e r t S. cbn [level_at]. rewrite S. auto. Qed.
Lemma pl_reset : forall now k h hs mo, PH now k h hs -> mo <> Some false -> PL now k h hs -> PL now k ((now, HReset mo) :: h) (fun j => (now, HReset None) :: hs j).
Proof.
  intros now k h hs mo H M [V I O N]. pose proof (ph_reset _ _ _ _ _ H M) as H'. constructor.
  - intros j J S. cbn [value_of]. auto.
  - intros j t J C. rewrite !level_start by auto. rewrite (ph_on _ _ _ _ H'). change (on_of ((now, HReset None) :: hs j)) with (on_of (hs j)). rewrite (ph_ons _ _ _ _ H) by auto.
    destruct (Qle_bool now t) eqn:Q; auto. apply Qle_bool_iff in Q. destruct k as [|k]; [destruct (cov_0 _ _ C)|]. pose proof (ph_now _ _ _ _ H) as PN0. cbn in PN0.
    assert (j = (k mod n)%nat) as -> by (apply (cov_now k j t); auto; lra). rewrite (proj2 (is_on_cur k _) eq_refl). cbn [value_of]. rewrite V; auto. apply is_on_cur. auto.
  - intros j t J C. rewrite level_start by auto. change (on_of ((now, HReset None) :: hs j)) with (on_of (hs j)). rewrite (ph_ons _ _ _ _ H) by auto.
    destruct (Qle_bool now t) eqn:Q; auto. apply Qle_bool_iff in Q. destruct k as [|k]; [reflexivity|]. pose proof (ph_now _ _ _ _ H) as PN0. cbn in PN0.
    destruct (is_on (S k) j) eqn:S; auto. apply is_on_cur in S. subst j. exfalso. apply C, cov_last. lra.
  - pose proof (ph_now _ _ _ _ H) as PN0. cbn in PN0. pose proof (ph_on _ _ _ _ H') as ON'. destruct k as [|k].
    + intros g. split.
      * intros j e J. cbn [integral starts]. change (on_of ((now, HReset None) :: hs j)) with (on_of (hs j)). rewrite (ph_ons _ _ _ _ H) by auto. cbn [is_on]. lra.
      * intros _ e. cbn [integral starts]. rewrite ON'. cbn [value_of]. rewrite PN0. lra.
    + exists (fun _ => 0). split; [intros; apply Qeq_refl|]. intros g e. cbn [integral starts]. rewrite ON'. cbn [value_of].
      rewrite (upto_one n (fun j => integral g ((now, HReset None) :: hs j) e) (fun _ => 0) (k mod n) (g (value_of h) * (e - now))); cbv beta; [| apply mod_lt | |].
      * rewrite (upto_zero n (fun _ => 0)) by (intros; lra). lra.
      * intros j J D. cbn [integral starts]. change (on_of ((now, HReset None) :: hs j)) with (on_of (hs j)). rewrite (ph_ons _ _ _ _ H) by auto. cbn [is_on]. rewrite (proj2 (Nat.eqb_neq _ _) D). lra.
      * cbn [integral starts]. change (on_of ((now, HReset None) :: hs (k mod n))) with (on_of (hs (k mod n))). rewrite (ph_ons _ _ _ _ H), (proj2 (is_on_cur k _) eq_refl) by apply mod_lt.
        cbn [value_of]. rewrite V; [lra | apply mod_lt | apply is_on_cur; auto].
Qed.
Lemma pn_reset : forall now k h hs mo, PN now k h hs -> PN now k ((now, HReset mo) :: h) (fun j => (now, HReset None) :: hs j).
Proof. intros. constructor. exists []. cbn [seen pick]. split; [constructor; intros ? ? ? []|]. split; [intros ? [] | auto]. Qed.

(** the parent is turned on (again) *)
Lemma ph_again : forall now k h hs, PH now k h hs -> PH now k ((now, HSwitch true) :: h) hs.
Proof. intros now k h hs [A B C D E]. constructor; auto. discriminate. Qed.
Lemma pl_again : forall now k h hs, PH now k h hs -> PL now k h hs -> (forall s e r, h = (s, e) :: r -> s <= now) -> PL now k ((now, HSwitch true) :: h) hs.
Proof.
  intros now k h hs H [V I O N] TI. pose proof (ph_on _ _ _ _ H) as ON.
  assert (LV : forall t, level_at ((now, HSwitch true) :: h) t = level_at h t).
  { intros t. rewrite level_cons by auto. cbn [on_of value_of]. destruct (Qle_bool now t) eqn:Q; auto.
    pose proof (ph_ne _ _ _ _ H). destruct h as [|[s e] r]; [contradiction|]. specialize (TI s e r eq_refl). apply Qle_bool_iff in Q.
    cbn [level_at]. rewrite (proj2 (Qle_bool_iff s t)), ON by lra. auto. }
  assert (IN : forall g e, integral g ((now, HSwitch true) :: h) e == integral g h e).
  { intros g e. cbn [integral starts on_of value_of]. rewrite (integral_on g h e now) by (auto; apply (ph_ne _ _ _ _ H)). lra. }
  constructor; auto.
  - intros j t J C. rewrite LV. auto.
  - destruct k as [|k].
    + intros g. destruct (N g) as (N1 & N2). split; auto. intros S e. rewrite IN. cbn [value_of]. apply N2. exact S.
    + destruct N as (L & L0 & LE). exists L. split; [exact L0|]. intros g e. rewrite IN. auto.
Qed.
Lemma pn_again : forall now k h hs, PN now k h hs -> PN now k ((now, HSwitch true) :: h) hs.
Proof. intros now k h hs [A]. constructor. exact A. Qed.

(** time passes *)
Lemma ph_clock : forall now now' k h hs, PH now k h hs -> now <= now' -> now' <= T k -> PH now' k h hs.
Proof. intros now now' k h hs [A B C D E] L L'. constructor; auto. destruct k; cbn in *; lra. Qed.
Lemma pl_clock : forall now now' k h hs, PL now k h hs -> PL now' k h hs.
Proof. intros now now' k h hs [A B C D]. constructor; auto. Qed.
Lemma pn_clock : forall now now' k h hs, PN now k h hs -> PN now' k h hs.
Proof. intros now now' k h hs [A]. constructor; auto. Qed.

(** a new period; for monitors that are not level monitors without the tally *)
Definition changed (lv : bool) (now : Q) (k : nat) (h : hist) (hs : nat -> hist) : nat -> hist :=
  let h1 := upd (cur_of k) ((now, HSwitch false) :: hs (cur_of k)) hs in
  let i := (k mod n)%nat in
  let h2 := if lv then upd i ((now, HTally (value_of h) 1) :: h1 i) h1 else h1 in
  upd i ((now, HSwitch true) :: h2 i) h2.
Lemma changed_new : forall lv now k h hs, exists r, changed lv now k h hs (k mod n) = (now, HSwitch true) :: r /\
  r = (if lv then fun z => (now, HTally (value_of h) 1) :: z else fun z => z) (if Nat.eqb (k mod n) (cur_of k) then (now, HSwitch false) :: hs (k mod n) else hs (k mod n)%nat).
Proof.
  intros. unfold changed. rewrite upd_same. eexists. split; [reflexivity|]. destruct lv; [rewrite upd_same|]; unfold upd; destruct (Nat.eqb_spec (k mod n) (cur_of k)) as [<-|]; auto.
Qed.
Lemma changed_old : forall lv now k h hs, cur_of k <> (k mod n)%nat -> changed lv now k h hs (cur_of k) = (now, HSwitch false) :: hs (cur_of k).
Proof. intros lv now k h hs D. unfold changed. rewrite upd_diff by auto. destruct lv; rewrite ?upd_diff by auto; apply upd_same. Qed.
Lemma changed_other : forall lv now k h hs j, j <> cur_of k -> j <> (k mod n)%nat -> changed lv now k h hs j = hs j.
Proof. intros lv now k h hs j D E. unfold changed. destruct lv; rewrite !upd_diff by auto; auto. Qed.
Lemma ph_change : forall lv now k h hs, PH now k h hs -> now == T k -> PH now (S k) h (changed lv now k h hs).
Proof.
  intros lv now k h hs [A B C D E] TK. constructor; auto.
  - intros j J. destruct (Nat.eq_dec j (k mod n)) as [->|N].
    + destruct (changed_new lv now k h hs) as (r & -> & _). cbn [on_of]. symmetry. apply is_on_cur. auto.
    + replace (is_on (S k) j) with false by (symmetry; cbn; apply Nat.eqb_neq; auto). destruct (Nat.eq_dec j (cur_of k)) as [->|M]; [rewrite changed_old by auto; auto|].
      rewrite changed_other by auto. rewrite C by auto. destruct k; [reflexivity|]. cbn in *. apply Nat.eqb_neq. auto.
  - lra.
  - pose proof (T_S k). lra.
Qed.
Lemma off_other : forall now k h hs j, PH now k h hs -> (j < n)%nat -> j <> cur_of k -> on_of (hs j) = false.
Proof. intros now k h hs j H J D. rewrite (ph_ons _ _ _ _ H) by auto. destruct k; cbn in *; auto. apply Nat.eqb_neq. auto. Qed.
Lemma pl_change : forall now k h hs, PH now k h hs -> PL now k h hs -> now == T k -> (forall s e r, h = (s, e) :: r -> s <= now) -> PL now (S k) h (changed true now k h hs).
Proof.
  intros now k h hs H [V I O N] TK TI.
  assert (LO : forall t, T k <= t -> level_at h t = Some (value_of h)).
  { intros t Q. pose proof (ph_ne _ _ _ _ H). pose proof (ph_on _ _ _ _ H) as ON. destruct h as [|[s e] r]; [contradiction|]. specialize (TI s e r eq_refl).
    cbn [level_at]. rewrite (proj2 (Qle_bool_iff s t)), ON by lra. auto. }
  assert (BE : forall j t, t < T k -> level_at (changed true now k h hs j) t = level_at (hs j) t).
  { intros j t Q. assert (F : Qle_bool now t = false) by (apply Qle_bool_false_iff; lra).
    destruct (Nat.eq_dec j (k mod n)) as [->|D].
    - destruct (changed_new true now k h hs) as (r & -> & ->). rewrite level_cons, F, level_cons, F by auto. destruct (Nat.eqb _ _); auto. rewrite level_cons, F by auto. auto.
    - destruct (Nat.eq_dec j (cur_of k)) as [->|M]; [|rewrite changed_other by auto; auto]. rewrite changed_old by auto. rewrite level_cons, F by auto. auto. }
  constructor.
  - intros j J S. apply is_on_cur in S. subst j. destruct (changed_new true now k h hs) as (r & -> & ->). reflexivity.
  - intros j t J C. destruct (Qlt_le_dec t (T k)) as [Q|Q].
    + rewrite BE by auto. apply I; auto. apply cov_next; auto.
    + assert (j = (k mod n)%nat) as -> by (apply (cov_now k j t); auto). destruct (changed_new true now k h hs) as (r & -> & ->). rewrite level_cons by auto.
      rewrite (proj2 (Qle_bool_iff now t)) by lra. cbn [on_of value_of]. symmetry. apply LO. auto.
  - intros j t J C. destruct (Qlt_le_dec t (T k)) as [Q|Q].
    + rewrite BE by auto. apply O; auto. rewrite <- cov_next; auto.
    + assert (D : j <> (k mod n)%nat) by (intros ->; apply C, cov_last; auto).
      destruct (Nat.eq_dec j (cur_of k)) as [->|M].
      * rewrite changed_old by auto. rewrite level_cons by auto. rewrite (proj2 (Qle_bool_iff now t)) by lra. reflexivity.
      * rewrite changed_other by auto. apply O; auto. intros K. destruct k as [|k']; [destruct (cov_0 _ _ K)|]. apply M. cbn [cur_of]. apply (cov_now k' j t); auto. pose proof (T_S k'). lra.
  - assert (SUM : forall g e, upto n (fun j => integral g (changed true now k h hs j) e) == upto n (fun j => integral g (hs j) now) + g (value_of h) * (e - now)).
    { intros g e. apply upto_one with (i := (k mod n)%nat); [apply mod_lt | |].
      - intros j J D. destruct (Nat.eq_dec j (cur_of k)) as [->|M].
        + rewrite changed_old by auto. cbn [integral on_of starts]. lra.
        + rewrite changed_other by auto. apply integral_off. eapply off_other; eauto.
      - destruct (changed_new true now k h hs) as (r & -> & ->). cbn [integral starts on_of value_of].
        destruct (Nat.eqb_spec (k mod n) (cur_of k)) as [E|D].
        + cbn [integral starts on_of value_of]. lra.
        + rewrite (off_other _ _ _ _ (k mod n)%nat H) by (auto; apply mod_lt). lra. }
    pose proof (ph_now _ _ _ _ H) as PN0. destruct k as [|k].
    + cbn in TK. exists (fun g => integral g h now). split.
      * intros g S. destruct (N g) as (_ & N2). rewrite (N2 S now). rewrite TK. ring.
      * intros g e. rewrite SUM. destruct (N g) as (N1 & _). rewrite (upto_zero n (fun j => integral g (hs j) now)) by auto.
        rewrite (integral_on g h e now) by (apply H). lra.
    + destruct N as (L & L0 & LE). exists L. split; auto. intros g e. rewrite SUM, (integral_on g h e now), (LE g now) by (apply H). lra.
Qed.
Lemma pn_change : forall now k h hs, PN now k h hs -> PN now (S k) h (changed false now k h hs).
Proof.
  intros now k h hs [(ls & A & B & C)]. constructor. exists ls. split; auto. split; [intros a I; specialize (B a I); lia|].
  intros j J. rewrite <- C by auto. unfold changed, upd. destruct (Nat.eqb j (k mod n)) eqn:E1; cbn [seen].
  - apply Nat.eqb_eq in E1. subst j. destruct (Nat.eqb (k mod n) (cur_of k)) eqn:E2; cbn [seen]; auto. apply Nat.eqb_eq in E2. rewrite E2. auto.
  - destruct (Nat.eqb j (cur_of k)) eqn:E2; cbn [seen]; auto. apply Nat.eqb_eq in E2. rewrite E2. auto.
Qed.
End P.
