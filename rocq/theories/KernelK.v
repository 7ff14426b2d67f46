(** Two runs of the kernel whose times are the same up to another unit and another origin (for C75).
    One lemma per kernel function: started in corresponding states with corresponding times, the two calls
    give the same outcome and corresponding states. *)
From Coq Require Import QArith Lqa List Bool Arith ZArith Lia.
From Verif Require Import Base Kernel Wp.
Import ListNotations.
Open Scope Q_scope.

(** y is x on the other scale: k units per unit, shifted by d *)
Definition onto (k d : Q) (x y : xq) : Prop :=
  match x, y with Fin a, Fin b => b == k * a + d | PInf, PInf => True | _, _ => False end.
Definition ev_onto (k d : Q) (e e' : ev) : Prop :=
  e_t e' == k * e_t e + d /\ e_prio e' = e_prio e /\ e_seq e' = e_seq e /\ e_c e' = e_c e.
(** a component on the other scale: the two times differ, all the rest is the same *)
Record comp_onto (k d : Q) (x y : comp) : Prop := {
  co_sched : onto k d (c_sched x) (c_sched y);
  co_rem : onto k 0 (c_rem x) (c_rem y);
  co_status : c_status y = c_status x; co_onev : c_onev y = c_onev x; co_ilevel : c_ilevel y = c_ilevel x;
  co_istat : c_istat y = c_istat x; co_requests : c_requests y = c_requests x; co_oneof : c_oneof y = c_oneof x;
  co_claims : c_claims y = c_claims x; co_waits : c_waits y = c_waits x; co_wall : c_wall y = c_wall x;
  co_cond : c_cond y = c_cond x; co_from : c_from y = c_from x; co_filter : c_filter y = c_filter x;
  co_fitem : c_fitem y = c_fitem x; co_to : c_to y = c_to x; co_titem : c_titem y = c_titem x;
  co_tprio : c_tprio y = c_tprio x; co_failed : c_failed y = c_failed x; co_skip : c_skip y = c_skip x;
  co_hasproc : c_hasproc y = c_hasproc x; co_retry : c_retry y = c_retry x }.
Record env_onto (k d : Q) (s t : env) : Prop := {
  eo_now : now t == k * now s + d;
  eo_off : off t == k * off s + d;
  eo_evl : Forall2 (ev_onto k d) (evl s) (evl t);
  eo_comps : forall c, comp_onto k d (comps s c) (comps t c);
  eo_seq : seq t = seq s; eo_stby : stby t = stby s; eo_pend : pend t = pend s; eo_cur : cur t = cur s;
  eo_rsc : rsc t = rsc s; eo_qs : qs t = qs s; eo_sval : sval t = sval s; eo_kcap : kcap t = kcap s;
  eo_kmav : kmav t = kmav s; eo_eoe : eoe t = eoe s; eo_running : running t = running s; eo_yl : yl t = yl s;
  eo_defcap : defcap t = defcap s; eo_ended : ended t = ended s }.
Definition spec_onto (k : Q) (x y : spec) : Prop :=
  match x, y with
  | SNone, SNone => True
  | SDur a, SDur b => onto k 0 a b
  | STill a, STill b => onto k 0 a b
  | SBoth, SBoth => True
  | _, _ => False
  end.

Section Scale.
Variables (k d : Q).
Hypothesis kpos : 0 < k.

Definition rel {A} (R : A -> A -> Prop) (m m' : M A) : Prop :=
  forall s t, env_onto k d s t ->
    match m s, m' t with
    | (s1, Ok a), (t1, Ok b) => env_onto k d s1 t1 /\ R a b
    | (s1, Er e), (t1, Er f) => env_onto k d s1 t1 /\ e = f
    | _, _ => False
    end.

Lemma r_bind : forall A B (R : A -> A -> Prop) (R' : B -> B -> Prop) m m' f f',
  rel R m m' -> (forall a b, R a b -> rel R' (f a) (f' b)) -> rel R' (bind m f) (bind m' f').
Proof.
  intros A B R R' m m' f f' H F s t E. specialize (H s t E). unfold bind.
  destruct (m s) as [s1 [a|e]], (m' t) as [t1 [b|e']]; try contradiction; auto. destruct H as [H1 H2]. exact (F a b H2 s1 t1 H1).
Qed.
Lemma r_ret : forall A (R : A -> A -> Prop) a b, R a b -> rel R (ret a) (ret b).
Proof. intros A R a b H s t E. cbn. auto. Qed.
Lemma r_raise : forall A (R : A -> A -> Prop) e, rel R (raise e) (raise e).
Proof. intros A R e s t E. cbn. auto. Qed.
Lemma r_get : forall A (R : A -> A -> Prop) f f', (forall s t, env_onto k d s t -> R (f s) (f' t)) -> rel R (get f) (get f').
Proof. intros A R f f' H s t E. cbn. auto. Qed.
Lemma r_put : forall f f', (forall s t, env_onto k d s t -> env_onto k d (f s) (f' t)) -> rel eq (put f) (put f').
Proof. intros f f' H s t E. cbn. auto. Qed.
Lemma r_setc : forall c f f', (forall x y, comp_onto k d x y -> comp_onto k d (f x) (f' y)) -> rel eq (setc c f) (setc c f').
Proof.
  intros c f f' H. apply r_put. intros s t []. constructor; cbn; auto. intros x. unfold upd. destruct (Nat.eqb x c); auto.
Qed.
Lemma r_setr : forall r f, rel eq (setr r f) (setr r f).
Proof. intros r f. apply r_put. intros s t []. constructor; cbn; auto. congruence. Qed.
Lemma r_stat : forall c, rel eq (stat c) (stat c).
Proof. intros c. apply r_get. intros s t E. symmetry. apply (co_status _ _ _ _ (eo_comps _ _ _ _ E c)). Qed.
Lemma r_when : forall b m m', rel eq m m' -> rel eq (when b m) (when b m').
Proof. intros [] m m' H; cbn; auto. apply r_ret. reflexivity. Qed.
Lemma r_if : forall A (R : A -> A -> Prop) (b : bool) m1 m1' m2 m2', rel R m1 m1' -> rel R m2 m2' -> rel R (if b then m1 else m2) (if b then m1' else m2').
Proof. intros A R []; auto. Qed.
Lemma r_mfor : forall A (l : list A) f f', (forall x, rel eq (f x) (f' x)) -> rel eq (mfor l f) (mfor l f').
Proof. induction l; intros f f' H; cbn; [apply r_ret; reflexivity | apply (r_bind _ _ eq); auto]. Qed.
Lemma r_now : rel (fun a b => onto k d (Fin a) (Fin b)) (get now) (get now).
Proof. apply r_get. intros s t []. auto. Qed.

(** comparing and adding times *)
Lemma on_le : forall a b a' b', a' == k * a + d -> b' == k * b + d -> (a' <= b' <-> a <= b).
Proof.
  intros a b a' b' -> ->. split; intros H; [|nra].
  apply Qnot_lt_le. intros C. assert (k * b < k * a) by nra. lra.
Qed.
Lemma on_leb : forall a b a' b', a' == k * a + d -> b' == k * b + d -> Qle_bool a' b' = Qle_bool a b.
Proof. intros. apply eq_true_iff_eq. rewrite !Qle_bool_iff. apply on_le; auto. Qed.
Lemma on_eqb : forall a b a' b', a' == k * a + d -> b' == k * b + d -> Qeq_bool a' b' = Qeq_bool a b.
Proof.
  intros a b a' b' A B. apply eq_true_iff_eq. rewrite !Qeq_bool_iff. pose proof (on_le _ _ _ _ A B). pose proof (on_le _ _ _ _ B A).
  split; intros E; apply Qle_antisym; firstorder lra.
Qed.
Lemma on_xltb : forall a b a' b', onto k d a a' -> onto k d b b' -> xltb a' b' = xltb a b.
Proof. intros [a|] [b|] [a'|] [b'|] A B; cbn in *; try contradiction; auto. unfold xltb. cbn. f_equal. apply on_leb; auto. Qed.
Lemma on_add : forall a b a' b', onto k d a a' -> onto k 0 b b' -> onto k d (xadd a b) (xadd a' b').
Proof. intros [a|] [b|] [a'|] [b'|] A B; cbn in *; try contradiction; auto. lra. Qed.
Lemma on_add2 : forall a b a' b', onto k 0 a a' -> onto k d b b' -> onto k d (xadd a b) (xadd a' b').
Proof. intros [a|] [b|] [a'|] [b'|] A B; cbn in *; try contradiction; auto. lra. Qed.
Lemma on_addq : forall a b a' b', onto k 0 a a' -> b' == k * b + d -> onto k d (xaddq a b) (xaddq a' b').
Proof. intros [a|] b [a'|] b' A B; cbn in *; try contradiction; auto. lra. Qed.
Lemma on_subq : forall a b a' b', onto k d a a' -> onto k d (Fin b) (Fin b') -> onto k 0 (xsubq a b) (xsubq a' b').
Proof. intros [a|] b [a'|] b' A B; cbn in *; try contradiction; auto. lra. Qed.
Lemma on_0 : onto k 0 (Fin 0) (Fin 0). Proof. cbn. lra. Qed.

(** the event list *)
Lemma on_evltb : forall a b a' b', ev_onto k d a a' -> ev_onto k d b b' -> ev_ltb a' b' = ev_ltb a b.
Proof.
  intros a b a' b' (A1 & A2 & A3 & A4) (B1 & B2 & B3 & B4). unfold ev_ltb, Qltb. rewrite A2, A3, B2, B3.
  rewrite (on_leb _ _ _ _ B1 A1), (on_eqb _ _ _ _ A1 B1). reflexivity.
Qed.
Lemma on_min : forall l l', Forall2 (ev_onto k d) l l' -> forall x x', ev_onto k d x x' -> ev_onto k d (ev_min x l) (ev_min x' l').
Proof.
  induction 1 as [|a a' l l' A F IH]; intros x x' X; cbn; auto. rewrite (on_evltb _ _ _ _ A X). destruct (ev_ltb a x); auto.
Qed.
Lemma on_del_seq : forall l l', Forall2 (ev_onto k d) l l' -> forall n, Forall2 (ev_onto k d) (ev_del_seq n l) (ev_del_seq n l').
Proof.
  induction 1 as [|a a' l l' A F IH]; intros n; cbn; auto. destruct A as (A1 & A2 & A3 & A4). rewrite A3.
  destruct (e_seq a =? n)%Z; cbn; [apply IH | constructor; [repeat split; auto | apply IH]].
Qed.
Definition popped (x y : option (ev * list ev)) : Prop :=
  match x, y with Some (e, l), Some (e', l') => ev_onto k d e e' /\ Forall2 (ev_onto k d) l l' | None, None => True | _, _ => False end.
Lemma on_pop : forall l l', Forall2 (ev_onto k d) l l' -> popped (ev_pop l) (ev_pop l').
Proof.
  intros l l' F. destruct F as [|a a' l l' A F]; cbn [ev_pop popped]; auto.
  pose proof (on_min _ _ F _ _ A) as K. split; auto. destruct K as (_ & _ & K & _). rewrite K. apply on_del_seq. constructor; auto.
Qed.
Definition oevs (x y : option (list ev)) : Prop :=
  match x, y with Some l, Some l' => Forall2 (ev_onto k d) l l' | None, None => True | _, _ => False end.
Lemma on_del : forall c l l', Forall2 (ev_onto k d) l l' -> oevs (ev_del c l) (ev_del c l').
Proof.
  intros c. induction 1 as [|a a' l l' A F IH]; cbn; auto. destruct A as (A1 & A2 & A3 & A4). rewrite A4.
  destruct (Nat.eqb (e_c a) c); cbn; auto. destruct (ev_del c l), (ev_del c l'); cbn in *; auto. constructor; auto. repeat split; auto.
Qed.

Hint Resolve on_add on_add2 on_addq on_subq on_0 eo_now eo_off : on.

(** what the two states have in common *)
Lemma g_status : forall s t, env_onto k d s t -> forall c, c_status (comps t c) = c_status (comps s c). Proof. intros s t E c. apply (eo_comps _ _ _ _ E c). Qed.
Lemma g_onev : forall s t, env_onto k d s t -> forall c, c_onev (comps t c) = c_onev (comps s c). Proof. intros s t E c. apply (eo_comps _ _ _ _ E c). Qed.
Lemma g_ilevel : forall s t, env_onto k d s t -> forall c, c_ilevel (comps t c) = c_ilevel (comps s c). Proof. intros s t E c. apply (eo_comps _ _ _ _ E c). Qed.
Lemma g_istat : forall s t, env_onto k d s t -> forall c, c_istat (comps t c) = c_istat (comps s c). Proof. intros s t E c. apply (eo_comps _ _ _ _ E c). Qed.
Lemma g_requests : forall s t, env_onto k d s t -> forall c, c_requests (comps t c) = c_requests (comps s c). Proof. intros s t E c. apply (eo_comps _ _ _ _ E c). Qed.
Lemma g_oneof : forall s t, env_onto k d s t -> forall c, c_oneof (comps t c) = c_oneof (comps s c). Proof. intros s t E c. apply (eo_comps _ _ _ _ E c). Qed.
Lemma g_claims : forall s t, env_onto k d s t -> forall c, c_claims (comps t c) = c_claims (comps s c). Proof. intros s t E c. apply (eo_comps _ _ _ _ E c). Qed.
Lemma g_waits : forall s t, env_onto k d s t -> forall c, c_waits (comps t c) = c_waits (comps s c). Proof. intros s t E c. apply (eo_comps _ _ _ _ E c). Qed.
Lemma g_wall : forall s t, env_onto k d s t -> forall c, c_wall (comps t c) = c_wall (comps s c). Proof. intros s t E c. apply (eo_comps _ _ _ _ E c). Qed.
Lemma g_cond : forall s t, env_onto k d s t -> forall c, c_cond (comps t c) = c_cond (comps s c). Proof. intros s t E c. apply (eo_comps _ _ _ _ E c). Qed.
Lemma g_from : forall s t, env_onto k d s t -> forall c, c_from (comps t c) = c_from (comps s c). Proof. intros s t E c. apply (eo_comps _ _ _ _ E c). Qed.
Lemma g_filter : forall s t, env_onto k d s t -> forall c, c_filter (comps t c) = c_filter (comps s c). Proof. intros s t E c. apply (eo_comps _ _ _ _ E c). Qed.
Lemma g_fitem : forall s t, env_onto k d s t -> forall c, c_fitem (comps t c) = c_fitem (comps s c). Proof. intros s t E c. apply (eo_comps _ _ _ _ E c). Qed.
Lemma g_to : forall s t, env_onto k d s t -> forall c, c_to (comps t c) = c_to (comps s c). Proof. intros s t E c. apply (eo_comps _ _ _ _ E c). Qed.
Lemma g_titem : forall s t, env_onto k d s t -> forall c, c_titem (comps t c) = c_titem (comps s c). Proof. intros s t E c. apply (eo_comps _ _ _ _ E c). Qed.
Lemma g_tprio : forall s t, env_onto k d s t -> forall c, c_tprio (comps t c) = c_tprio (comps s c). Proof. intros s t E c. apply (eo_comps _ _ _ _ E c). Qed.
Lemma g_failed : forall s t, env_onto k d s t -> forall c, c_failed (comps t c) = c_failed (comps s c). Proof. intros s t E c. apply (eo_comps _ _ _ _ E c). Qed.
Lemma g_skip : forall s t, env_onto k d s t -> forall c, c_skip (comps t c) = c_skip (comps s c). Proof. intros s t E c. apply (eo_comps _ _ _ _ E c). Qed.
Lemma g_hasproc : forall s t, env_onto k d s t -> forall c, c_hasproc (comps t c) = c_hasproc (comps s c). Proof. intros s t E c. apply (eo_comps _ _ _ _ E c). Qed.
Lemma g_retry : forall s t, env_onto k d s t -> forall c, c_retry (comps t c) = c_retry (comps s c). Proof. intros s t E c. apply (eo_comps _ _ _ _ E c). Qed.
Ltac same E :=
  rewrite ?(g_status _ _ E), ?(g_onev _ _ E), ?(g_ilevel _ _ E), ?(g_istat _ _ E), ?(g_requests _ _ E), ?(g_oneof _ _ E), ?(g_claims _ _ E), ?(g_waits _ _ E), ?(g_wall _ _ E), ?(g_cond _ _ E), ?(g_from _ _ E), ?(g_filter _ _ E), ?(g_fitem _ _ E), ?(g_to _ _ E), ?(g_titem _ _ E), ?(g_tprio _ _ E), ?(g_failed _ _ E), ?(g_skip _ _ E), ?(g_hasproc _ _ E), ?(g_retry _ _ E),
    ?(eo_seq _ _ _ _ E), ?(eo_stby _ _ _ _ E), ?(eo_pend _ _ _ _ E), ?(eo_cur _ _ _ _ E), ?(eo_rsc _ _ _ _ E), ?(eo_qs _ _ _ _ E), ?(eo_sval _ _ _ _ E), ?(eo_kcap _ _ _ _ E), ?(eo_kmav _ _ _ _ E), ?(eo_eoe _ _ _ _ E), ?(eo_running _ _ _ _ E), ?(eo_yl _ _ _ _ E), ?(eo_defcap _ _ _ _ E), ?(eo_ended _ _ _ _ E).
Ltac kget := apply r_get; let s := fresh in let t := fresh in let E := fresh in intros s t E; same E; reflexivity.
Ltac kput := apply r_put; let s := fresh in let t := fresh in let E := fresh in intros s t E; same E; destruct E; constructor; cbn; auto.
Ltac ksetc := apply r_setc; let x := fresh in let y := fresh in let E := fresh in intros x y E; destruct E; constructor; cbn -[onto xsubq]; first [assumption | congruence | exact Logic.I | match goal with H : _ = _ |- _ => rewrite H; reflexivity end | solve [auto with on]].
Ltac kstep :=
  lazymatch goal with
  | |- rel eq (bind (get now) _) _ => eapply (r_bind _ _ _ eq); [apply r_now | intros ? ? ?]
  | |- rel eq (bind (get (fun s => xadd (@?a s) (@?b s))) _) _ => eapply (r_bind _ _ (onto k d) eq); [apply r_get | intros ? ? ?]
  | |- rel eq (bind _ _) _ => apply (r_bind _ _ eq eq); [| intros ? ? <-]
  | |- rel eq (ret _) _ => apply r_ret; reflexivity
  | |- rel _ (raise _) _ => apply r_raise
  | |- rel eq (get _) _ => kget
  | |- rel eq (put _) _ => kput
  | |- rel eq (setc _ _) _ => ksetc
  | |- rel eq (setr _ _) _ => apply r_setr
  | |- rel eq (stat _) _ => apply r_stat
  | |- rel eq (when _ _) _ => apply r_when
  | |- rel eq (mfor _ _) _ => apply r_mfor; intros
  | |- rel eq (match ?x with _ => _ end) _ => first [apply r_if | destruct x]
  end; cbv beta.
Ltac kg := repeat kstep; auto with on kk.

Lemma k_q_enter : forall q c p, rel eq (q_enter q c p) (q_enter q c p). Proof. intros. unfold q_enter, m_q. kg. Qed.
Lemma k_q_leave : forall q c, rel eq (q_leave q c) (q_leave q c). Proof. intros. unfold q_leave, m_q. kg. Qed.
Lemma k_q_prio : forall q c, rel eq (q_prio q c) (q_prio q c). Proof. intros. unfold q_prio. kg. Qed.
Hint Resolve k_q_enter k_q_leave k_q_prio : kk.
Lemma k_remove : forall c, rel eq (remove c) (remove c).
Proof.
  intros. unfold remove. apply (r_bind _ _ eq); [kget | intros b ? <-]. destruct b; [|kg].
  eapply r_bind with (R := Forall2 (ev_onto k d)); [apply r_get; intros s t E; apply E|]. intros l l' F. pose proof (on_del c _ _ F) as D.
  destruct (ev_del c l), (ev_del c l'); cbn in D; try contradiction; kg.
Qed.
Lemma k_push : forall c a b p u, onto k d a b -> rel eq (push c a p u) (push c b p u).
Proof.
  intros c [a|] [b|] p u H; cbn in H; try contradiction; unfold push; kg.
  apply Forall2_app; auto. constructor; auto. repeat split; auto.
Qed.
Lemma k_reschedule : forall c a b p u cap, onto k d a b -> rel eq (reschedule c a p u cap) (reschedule c b p u cap).
Proof.
  intros c a b p u cap H. unfold reschedule.
  apply (r_bind _ _ eq). { apply r_get. intros s t E. symmetry. apply on_xltb; auto. apply E. } intros past ? <-.
  eapply r_bind with (R := onto k d).
  - destruct past; [|apply r_ret; auto]. apply (r_bind _ _ eq). { unfold capped. destruct cap; kg. } intros x ? <-.
    destruct x; [|kg]. apply r_get. intros s t E. apply E.
  - intros x y X. apply (r_bind _ _ eq); [ksetc | intros _ _ _]. apply k_push; auto.
Qed.
Hint Resolve k_remove k_reschedule : kk.
Lemma k_leave_req : forall c r, rel eq (leave_req c r) (leave_req c r). Proof. intros. unfold leave_req. kg. Qed.
Hint Resolve k_leave_req : kk.
Lemma k_check_fail : forall c, rel eq (check_fail c) (check_fail c). Proof. intros. unfold check_fail. kg. Qed.
Lemma k_notdata : forall c, rel eq (check_notdata c) (check_notdata c). Proof. intros. unfold check_notdata. kg. Qed.
Lemma k_notmain : forall c, rel eq (check_notmain c) (check_notmain c). Proof. intros. unfold check_notmain. kg. Qed.
Hint Resolve k_check_fail k_notdata k_notmain : kk.
Lemma k_at : forall a a' dl dl', match a, a' with None, None => True | Some x, Some y => onto k 0 x y | _, _ => False end -> onto k 0 dl dl' ->
  rel (onto k d) (get (fun s => match a with None => xadd (Fin (now s)) dl | Some x => xadd (xaddq x (off s)) dl end))
    (get (fun s => match a' with None => xadd (Fin (now s)) dl' | Some x => xadd (xaddq x (off s)) dl' end)).
Proof.
  intros [a|] [a'|] dl dl' A D; try contradiction; apply r_get; intros s t E; apply on_add; auto; [apply on_addq; auto|]; apply E.
Qed.
Lemma k_activate : forall c a a' dl dl' p u pr kr kw cap,
  match a, a' with None, None => True | Some x, Some y => onto k 0 x y | _, _ => False end -> onto k 0 dl dl' ->
  rel eq (activate c a dl p u pr kr kw cap) (activate c a' dl' p u pr kr kw cap).
Proof.
  intros. unfold activate. do 5 (kstep; [solve [kg] |]). eapply (r_bind _ _ (onto k d)); [apply k_at; auto | intros]. kg.
Qed.
Lemma k_create : forall c a a' dl dl' p u sk cap,
  match a, a' with None, None => True | Some x, Some y => onto k 0 x y | _, _ => False end -> onto k 0 dl dl' ->
  rel eq (create c a dl p u sk cap) (create c a' dl' p u sk cap).
Proof.
  intros. unfold create. kstep; [kg|]. eapply (r_bind _ _ (onto k d)); [apply k_at; auto | intros]. kg.
Qed.
Lemma k_hold : forall c sp sp' p u i cap, spec_onto k sp sp' -> rel eq (hold c sp p u i cap) (hold c sp' p u i cap).
Proof.
  intros c sp sp' p u i cap H. unfold hold. do 2 (kstep; [solve [kg] |]). eapply (r_bind _ _ (onto k d)).
  - destruct sp as [|a1|a1|], sp' as [|b1|b1|]; cbn in H; try contradiction; [| | |apply r_raise]; apply r_get; intros s t E; [apply E | apply on_add; auto; apply E | apply on_addq; auto; apply E].
  - intros x y X. apply (r_bind _ _ eq). { apply r_get. intros s t E. symmetry. apply on_xltb; auto. apply E. } intros past ? <-.
    eapply r_bind with (R := onto k d).
    + destruct past; [|apply r_ret; auto]. apply (r_bind _ _ eq). { unfold capped. destruct cap; kg. } intros z ? <-.
      destruct z; [|kg]. apply r_get. intros s t E. apply E.
    + intros x1 y1 X1. kg.
Qed.
Lemma k_passivate : forall c, rel eq (passivate c) (passivate c).
Proof. intros. unfold passivate. kg. Qed.
Lemma k_interrupt : forall c, rel eq (interrupt c) (interrupt c).
Proof. intros. unfold interrupt. kg. Qed.
Lemma k_resume : forall c al p u, rel eq (resume c al p u) (resume c al p u).
Proof.
  intros. unfold resume. kg. intros s t E. apply on_add; apply E.
Qed.
Lemma k_standby : forall c, rel eq (standby c) (standby c).
Proof. intros. unfold standby. kg. Qed.
Lemma k_set_remaining : forall c v v' p u, onto k 0 v v' -> rel eq (set_remaining c v p u) (set_remaining c v' p u).
Proof.
  intros. unfold set_remaining. kg. intros s t E. apply on_add2; auto; apply E.
Qed.
Lemma k_fail_time : forall sp sp', spec_onto k sp sp' -> rel (onto k d) (fail_time sp) (fail_time sp').
Proof.
  intros sp sp' H. unfold fail_time. destruct sp as [|a1|a1|], sp' as [|b1|b1|]; cbn in H; try contradiction; [apply r_ret; exact Logic.I | | |apply r_raise];
    apply r_get; intros s t E; [apply on_add; auto; apply E | apply on_addq; auto; apply E].
Qed.
(** resources *)
Lemma k_honor_one : forall c r q, rel eq (honor_one c r q) (honor_one c r q).
Proof. intros. unfold honor_one. kg. Qed.
Hint Resolve k_honor_one : kk.
Lemma k_honor_all : forall c, rel eq (honor_all c) (honor_all c).
Proof.
  assert (F : forall c rq, rel eq (honor_all_from c rq) (honor_all_from c rq)) by (induction rq as [|[r q] t IH]; cbn; kg).
  intros. unfold honor_all. kg.
Qed.
Lemma k_honor_any : forall c, rel eq (honor_any c) (honor_any c).
Proof.
  assert (F : forall c rq, rel eq (honor_any_from c rq) (honor_any_from c rq)) by (induction rq as [|[r q] t IH]; cbn; kg).
  intros. unfold honor_any. kg.
Qed.
Lemma k_claim : forall c r q, rel eq (claim c r q) (claim c r q).
Proof. intros. unfold claim. kg. Qed.
Hint Resolve k_honor_all k_honor_any k_claim : kk.
Lemma k_c_try : forall rt c, (forall r, rel eq (rt r) (rt r)) -> rel eq (c_try rt c) (c_try rt c).
Proof. intros. unfold c_try. kg. Qed.
Lemma k_rloop : forall ct r an first p1, (forall c, rel eq (ct c) (ct c)) -> forall n mx, rel eq (rloop ct n r an first p1 mx) (rloop ct n r an first p1 mx).
Proof. induction n; intros mx; cbn; destruct mx as [[c p]|]; kg. Qed.
Lemma k_r_try : forall n r, rel eq (r_try n r) (r_try n r).
Proof. induction n; intros; cbn; kg; apply k_rloop; intros; apply k_c_try; auto. Qed.
Hint Resolve k_r_try k_c_try : kk.
Lemma k_release1 : forall n c r q b, rel eq (release1 n c r q b) (release1 n c r q b).
Proof. intros. unfold release1. kg. Qed.
Hint Resolve k_release1 : kk.
Lemma k_release : forall n c a, rel eq (release n c a) (release n c a).
Proof. intros. unfold release. kg. Qed.
Hint Resolve k_release : kk.
Lemma k_release_claimers : forall f n r mx, rel eq (release_claimers f n r mx) (release_claimers f n r mx).
Proof. induction n; intros r mx; cbn [release_claimers]; destruct mx as [[c p]|]; kg. Qed.
Hint Resolve k_release_claimers : kk.
Lemma k_res_release : forall f r q, rel eq (res_release f r q) (res_release f r q).
Proof. intros. unfold res_release. kg. Qed.
Lemma k_set_cap : forall f r cap, rel eq (set_cap f r cap) (set_cap f r cap).
Proof. intros. unfold set_cap. kg. Qed.
Lemma k_cancel : forall f c, rel eq (cancel f c) (cancel f c).
Proof. intros. unfold cancel. kg. Qed.
Lemma k_request1 : forall n c m a, rel eq (request1 n c m a) (request1 n c m a).
Proof. intros. unfold request1. destruct a as [[r q] p]. kg. apply k_activate; auto with on. Qed.
Hint Resolve k_request1 : kk.
Ltac kfail := eapply (r_bind _ _ (onto k d)); [apply k_fail_time; assumption | intros ? ? ?].
Lemma k_request : forall n c a o f f' p u cap, spec_onto k f f' -> rel eq (request n c a o f p u cap) (request n c a o f' p u cap).
Proof. intros. unfold request. do 3 (kstep; [solve [kg] |]). kfail. kg. Qed.
(** states *)
Lemma k_c_trywait : forall c, rel eq (c_trywait c) (c_trywait c).
Proof.
  intros. unfold c_trywait, leave_wait. kstep; [kg|]. kstep; [kg|]. kstep.
  { apply r_get. intros s t E. unfold wait_ok. same E. reflexivity. } kg.
Qed.
Hint Resolve k_c_trywait : kk.
Lemma k_s_trywait : forall l m, rel eq (s_trywait l m) (s_trywait l m).
Proof. induction l; intros m; cbn; kg. Qed.
Hint Resolve k_s_trywait : kk.
Lemma k_st_set : forall st v, rel eq (st_set st v) (st_set st v).
Proof. intros. unfold st_set, set_sval, st_trywait. kg. Qed.
Lemma k_st_trigger : forall st v a m, rel eq (st_trigger st v a m) (st_trigger st v a m).
Proof. intros. unfold st_trigger, set_sval, st_trywait. kg. Qed.
Lemma k_wait1 : forall c a, rel eq (wait1 c a) (wait1 c a).
Proof. intros. unfold wait1. destruct a as [[st f] p]. kg. Qed.
Hint Resolve k_wait1 : kk.
Lemma k_wait : forall c a al f f' p u cap, spec_onto k f f' -> rel eq (wait c a al f p u cap) (wait c a al f' p u cap).
Proof. intros. unfold wait. do 5 (kstep; [solve [kg] |]). kfail. kg. Qed.
Lemma k_wait_for : forall c a al f f' p u cap, spec_onto k f f' -> rel eq (wait_for c a al f p u cap) (wait_for c a al f' p u cap).
Proof. intros. unfold wait_for. do 3 (kstep; [solve [kg] |]). kfail. kg. Qed.
(** stores *)
Lemma k_set_kmav : forall st v, rel eq (set_kmav st v) (set_kmav st v).
Proof. intros. unfold set_kmav. kg. Qed.
Lemma k_give : forall x c, rel eq (give x c) (give x c).
Proof. intros. unfold give. kg. Qed.
Lemma k_leave_from : forall c, rel eq (leave_from c) (leave_from c).
Proof. intros. unfold leave_from. kg. Qed.
Lemma k_leave_to : forall c, rel eq (leave_to c) (leave_to c).
Proof. intros. unfold leave_to. kg. Qed.
Hint Resolve k_set_kmav k_give k_leave_from k_leave_to : kk.
Lemma find_same : forall A (f g : A -> bool) l, (forall x, f x = g x) -> find f l = find g l.
Proof. induction l; intros H; cbn; auto. rewrite H, IHl; auto. Qed.
Lemma k_item : forall n, (forall st c w, rel eq (item_enter n st c w) (item_enter n st c w)) /\ (forall st c, rel eq (item_leave n st c) (item_leave n st c)).
Proof.
  induction n as [|n [IH1 IH2]]; split; intros; cbn [item_enter item_leave]; unfold m_q; repeat kstep; auto with kk on.
  apply r_get. intros s t E. same E. apply find_same. intros x. same E. reflexivity.
Qed.
Lemma k_item_enter : forall n st c w, rel eq (item_enter n st c w) (item_enter n st c w). Proof. intros. apply k_item. Qed.
Lemma k_item_leave : forall n st c, rel eq (item_leave n st c) (item_leave n st c). Proof. intros. apply k_item. Qed.
Hint Resolve k_item_enter k_item_leave : kk.
Lemma k_find : forall s t, env_onto k d s t -> forall f key ks best lk, find_item t f key best ks lk = find_item s f key best ks lk.
Proof. intros s t E f key. induction ks as [|x l IH]; intros; cbn [find_item]; auto. same E. destruct key; [apply IH|]. destruct (find f _); auto. Qed.
Lemma k_from_store : forall n c ks f key rp fl fl' fp u cap, spec_onto k fl fl' ->
  rel eq (from_store n c ks f key rp fl fp u cap) (from_store n c ks f key rp fl' fp u cap).
Proof.
  intros. unfold from_store. do 3 (kstep; [solve [kg] |]). kfail. kstep; [kg|]. kstep; [|kg].
  apply r_get. intros s t E. symmetry. apply k_find; auto.
Qed.
Lemma k_to_try : forall n c i p ks, rel eq (to_try n c i p ks) (to_try n c i p ks).
Proof. induction ks; cbn [to_try]; kg. Qed.
Hint Resolve k_to_try : kk.
Lemma k_to_store : forall n c ks i rp p fl fl' fp u cap, spec_onto k fl fl' ->
  rel eq (to_store n c ks i rp p fl fp u cap) (to_store n c ks i rp p fl' fp u cap).
Proof. intros. unfold to_store. do 3 (kstep; [solve [kg] |]). kfail. kg. Qed.
Lemma k_rescan_items : forall n st x l, rel eq (rescan_items n st x l) (rescan_items n st x l).
Proof. induction l; cbn [rescan_items]; kg. Qed.
Hint Resolve k_rescan_items : kk.
Lemma k_rescan : forall n st, rel eq (rescan n st) (rescan n st).
Proof. intros. unfold rescan. kg. Qed.
Hint Resolve k_rescan : kk.
Lemma k_set_filter : forall n c f, rel eq (set_filter n c f) (set_filter n c f).
Proof. intros. unfold set_filter. kg. Qed.
Lemma k_rescan_to_loop : forall n st l, rel eq (rescan_to_loop n st l) (rescan_to_loop n st l).
Proof. induction l; cbn [rescan_to_loop]; kg. Qed.
Hint Resolve k_rescan_to_loop : kk.
Lemma k_st_set_cap : forall n st cap, rel eq (st_set_cap n st cap) (st_set_cap n st cap).
Proof. intros. unfold st_set_cap. kg. Qed.
(** scheduler *)
Lemma k_terminate : forall n c, rel eq (terminate n c) (terminate n c).
Proof. intros. unfold terminate. kg. Qed.
Lemma k_continue : forall n c, rel eq (continue n c) (continue n c).
Proof. intros. unfold continue. kg. Qed.
Hint Resolve k_continue : kk.
Definition oev (x y : option ev) : Prop := match x, y with Some e, Some e' => ev_onto k d e e' | None, None => True | _, _ => False end.
Lemma k_step_event : forall n, rel eq (step_event n) (step_event n).
Proof.
  intros. unfold step_event. do 2 (kstep; [solve [kg] |]).
  eapply r_bind with (R := Forall2 (ev_onto k d)); [apply r_get; intros s t E; apply E|]. intros l l' F. pose proof (on_pop _ _ F) as D.
  eapply r_bind with (R := oev).
  - destruct (ev_pop l) as [[e l1]|], (ev_pop l') as [[e' l1']|]; cbn in D; try contradiction; [|apply r_ret; exact Logic.I].
    destruct D as [D1 D2]. apply (r_bind _ _ eq); [kg | intros _ _ _]. apply r_ret. exact D1.
  - intros [e|] [e'|] X; cbn in X; try contradiction; [|kg].
    destruct X as (X1 & X2 & X3 & X4). rewrite X4. kg.
Qed.
Hint Resolve k_step_event : kk.
Lemma k_step : forall n, rel eq (step n) (step n).
Proof. intros. unfold step. kg. Qed.
Lemma k_run : forall sp sp' p u cap, spec_onto k sp sp' -> rel eq (run sp p u cap) (run sp' p u cap).
Proof.
  intros sp sp' p u cap H. unfold run. kstep; [kg|]. eapply (r_bind _ _ (onto k d)); [|intros; kg].
  destruct sp as [|a1|a1|], sp' as [|b1|b1|]; cbn in H; try contradiction; [| | |apply r_raise].
  - apply (r_bind _ _ eq); [kg | intros _ _ _]. apply r_ret. exact Logic.I.
  - apply r_get; intros s t E. apply on_add; auto; apply E.
  - apply r_get; intros s t E. apply on_addq; auto; apply E.
Qed.
Lemma k_reset_now : forall x x', x' == k * x -> rel eq (reset_now x) (reset_now x').
Proof. intros. unfold reset_now. apply r_put. intros s t []. constructor; cbn; auto. lra. Qed.
End Scale.
