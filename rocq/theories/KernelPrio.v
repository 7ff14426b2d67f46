(** Two runs of the kernel that differ in the priorities given only, where the priorities of the second are ordered like those of the first (for C78).
    One lemma per kernel function: started in corresponding states with corresponding priorities, the two calls give the same outcome and corresponding states. *)
From Coq Require Import QArith Lqa List Bool Arith ZArith Lia.
From Verif Require Import Base Kernel Wp.
Import ListNotations.
Open Scope Q_scope.

Section Prio.
Variable g : xq -> xq.
Hypothesis glt : forall a b, xltb (g a) (g b) = xltb a b.
Hypothesis g0 : g (Fin 0) = Fin 0.

(** the same line, the same event, the same component with the other priorities *)
Definition gl (l : list (nat * xq)) : list (nat * xq) := map (fun x => (fst x, g (snd x))) l.
Definition ge (e : ev) : ev := mkEv (e_t e) (g (e_prio e)) (e_seq e) (e_c e).
Definition gc (x : comp) : comp := w_tprio (g (c_tprio x)) x.
Definition gw (w : qpos) : qpos := match w with PSorted p => PSorted (g p) | w => w end.
Record env_prio (s t : env) : Prop := {
  ep_evl : evl t = map ge (evl s);
  ep_qs : forall q, qs t q = gl (qs s q);
  ep_comps : forall c, comps t c = gc (comps s c);
  ep_now : now t = now s; ep_off : off t = off s; ep_seq : seq t = seq s; ep_stby : stby t = stby s; ep_pend : pend t = pend s; ep_cur : cur t = cur s; ep_rsc : rsc t = rsc s; ep_sval : sval t = sval s; ep_kcap : kcap t = kcap s; ep_kmav : kmav t = kmav s; ep_eoe : eoe t = eoe s; ep_running : running t = running s; ep_yl : yl t = yl s; ep_defcap : defcap t = defcap s; ep_ended : ended t = ended s }.

Definition rel {A} (R : A -> A -> Prop) (m m' : M A) : Prop :=
  forall s t, env_prio s t ->
    match m s, m' t with
    | (s1, Ok a), (t1, Ok b) => env_prio s1 t1 /\ R a b
    | (s1, Er e), (t1, Er f) => env_prio s1 t1 /\ e = f
    | _, _ => False
    end.

Lemma r_bind : forall A B (R : A -> A -> Prop) (R' : B -> B -> Prop) m m' f f',
  rel R m m' -> (forall a b, R a b -> rel R' (f a) (f' b)) -> rel R' (bind m f) (bind m' f').
Proof.
  intros A B R R' m m' f f' H F s t E. specialize (H s t E). unfold bind.
  destruct (m s) as [s1 [a|e]], (m' t) as [t1 [b|e']]; try contradiction; auto. destruct H as [H1 H2]. exact (F a b H2 s1 t1 H1).
Qed.
Lemma r_ret : forall A (R : A -> A -> Prop) a b, R a b -> rel R (ret a) (ret b).
Proof. intros A R a b H s t E. cbn. auto. Qed.
Lemma r_raise : forall A (R : A -> A -> Prop) e, rel R (raise e) (raise e).
Proof. intros A R e s t E. cbn. auto. Qed.
Lemma r_get : forall A (R : A -> A -> Prop) f f', (forall s t, env_prio s t -> R (f s) (f' t)) -> rel R (get f) (get f').
Proof. intros A R f f' H s t E. cbn. auto. Qed.
Lemma r_put : forall f f', (forall s t, env_prio s t -> env_prio (f s) (f' t)) -> rel eq (put f) (put f').
Proof. intros f f' H s t E. cbn. auto. Qed.
Lemma r_setc : forall c f f', (forall x, f' (gc x) = gc (f x)) -> rel eq (setc c f) (setc c f').
Proof.
  intros c f f' H. apply r_put. intros s t []. constructor; cbn; auto. intros x. unfold upd. destruct (Nat.eqb x c); auto. rewrite ep_comps0. auto.
Qed.
Lemma r_setr : forall r f, rel eq (setr r f) (setr r f).
Proof. intros r f. apply r_put. intros s t []. constructor; cbn; auto. congruence. Qed.
Lemma r_stat : forall c, rel eq (stat c) (stat c).
Proof. intros c. apply r_get. intros s t E. rewrite (ep_comps _ _ E). reflexivity. Qed.
Lemma r_when : forall b m m', rel eq m m' -> rel eq (when b m) (when b m').
Proof. intros [] m m' H; cbn; auto. apply r_ret. reflexivity. Qed.
Lemma r_if : forall A (R : A -> A -> Prop) (b : bool) m1 m1' m2 m2', rel R m1 m1' -> rel R m2 m2' -> rel R (if b then m1 else m2) (if b then m1' else m2').
Proof. intros A R []; auto. Qed.
Lemma r_mfor : forall A (l : list A) f f', (forall x, rel eq (f x) (f' x)) -> rel eq (mfor l f) (mfor l f').
Proof. induction l; intros f f' H; cbn; [apply r_ret; reflexivity | apply (r_bind _ _ eq); auto]. Qed.

(** comparing priorities *)
Lemma gle : forall a b, xleb (g a) (g b) = xleb a b.
Proof.
  assert (N : forall a b, xleb a b = negb (xltb b a)) by (intros a b; unfold xltb; rewrite negb_involutive; reflexivity).
  intros. rewrite !N, glt. reflexivity.
Qed.
Lemma geq : forall a b, xeqb (g a) (g b) = xeqb a b.
Proof.
  assert (N : forall a b, xeqb a b = negb (xltb a b) && negb (xltb b a)).
  { intros [a|] [b|]; unfold xltb; cbn; auto. rewrite !negb_involutive. apply eq_true_iff_eq. rewrite andb_true_iff, !Qle_bool_iff, Qeq_bool_iff.
    split; [intros ->; split; apply Qle_refl | intros [A B]; apply Qle_antisym; auto]. }
  intros. rewrite !N, !glt. reflexivity.
Qed.
(** lines *)
Lemma gl_cons : forall y l, gl (y :: l) = (fst y, g (snd y)) :: gl l. Proof. reflexivity. Qed.
Lemma gl_fst : forall l, map fst (gl l) = map fst l.
Proof. intros. unfold gl. rewrite map_map. reflexivity. Qed.
Lemma gl_inq : forall c l, inq c (gl l) = inq c l.
Proof. intros. unfold inq. rewrite gl_fst. reflexivity. Qed.
Lemma gl_len : forall l, xlen (gl l) = xlen l.
Proof. intros. unfold xlen, gl. rewrite map_length. reflexivity. Qed.
Lemma gl_nonnil : forall l, nonnil (gl l) = nonnil l.
Proof. intros [|]; reflexivity. Qed.
Lemma gl_qprio : forall c l, qprio c (gl l) = option_map g (qprio c l).
Proof. unfold qprio. induction l as [|[x p] l IH]; cbn; auto. destruct (Nat.eqb c x); auto. Qed.
Lemma gl_adel : forall c l, adel c (gl l) = gl (adel c l).
Proof. induction l as [|[x p] l IH]; [reflexivity|]. unfold adel, gl in *. cbn. destruct (Nat.eqb c x); cbn; rewrite ?IH; auto. Qed.
Lemma gl_all : forall p l, forallb (fun z => xltb (g p) (snd z)) (gl l) = forallb (fun z => xltb p (snd z)) l.
Proof. induction l as [|y l IH]; [reflexivity|]. rewrite gl_cons. cbn [forallb snd]. rewrite glt, IH. reflexivity. Qed.
Lemma gl_tail : forall c p l, ins_tail c (g p) (gl l) = gl (ins_tail c p l).
Proof.
  induction l as [|y l IH]; [reflexivity|]. cbn [ins_tail]. rewrite <- gl_all, gl_cons. cbn [ins_tail].
  destruct (forallb _ _); [rewrite !gl_cons | rewrite gl_cons, IH]; reflexivity.
Qed.
Lemma gl_sorted : forall c p l, ins_sorted c (g p) (gl l) = gl (ins_sorted c p l).
Proof.
  intros c p [|y l]; [reflexivity|]. rewrite gl_cons. unfold ins_sorted. cbn [snd]. rewrite glt, <- gl_cons, gl_tail. destruct (xltb p (snd y)); reflexivity.
Qed.
Lemma gl_before : forall c x l, ins_before c x (gl l) = gl (ins_before c x l).
Proof. induction l as [|[y p] l IH]; [reflexivity|]. rewrite gl_cons. cbn [ins_before fst snd]. destruct (Nat.eqb x y); rewrite !gl_cons, ?IH; reflexivity. Qed.
Lemma gl_behind : forall c x l, ins_behind c x (gl l) = gl (ins_behind c x l).
Proof. induction l as [|[y p] l IH]; [reflexivity|]. rewrite gl_cons. cbn [ins_behind fst snd]. destruct (Nat.eqb x y); rewrite !gl_cons, ?IH; reflexivity. Qed.
Lemma gl_lastprio : forall l, lastprio (gl l) = g (lastprio l).
Proof.
  unfold lastprio. induction l as [|[x p] l IH]; [symmetry; exact g0|]. destruct l as [|y l]; [reflexivity|]. exact IH.
Qed.
Lemma gl_headprio : forall l, headprio (gl l) = g (headprio l).
Proof. intros [|y l]; cbn; auto. Qed.
Lemma gl_at : forall c w l, ins_at c (gw w) (gl l) = gl (ins_at c w l).
Proof.
  intros c [p| | |x|x] l; cbn [ins_at gw]; [apply gl_sorted | | | apply gl_before | apply gl_behind].
  - rewrite gl_lastprio. unfold gl. rewrite map_app. reflexivity.
  - rewrite gl_headprio. reflexivity.
Qed.
Lemma gl_ok : forall w l, pos_ok (gw w) (gl l) = pos_ok w l.
Proof. intros [p| | |x|x] l; cbn [gw pos_ok]; rewrite ?gl_fst; reflexivity. Qed.
Definition gm (m : option (nat * xq)) : option (nat * xq) := option_map (fun x => (fst x, g (snd x))) m.
Lemma gl_hd : forall l, hd_error (gl l) = gm (hd_error l).
Proof. intros [|y l]; reflexivity. Qed.
Lemma gl_next : forall c l, qnext c (gl l) = gm (qnext c l).
Proof. induction l as [|[x p] l IH]; cbn; auto. destruct (Nat.eqb c x); auto. apply gl_hd. Qed.
Lemma gl_rev : forall l, rev (gl l) = gl (rev l).
Proof. intros. unfold gl. symmetry. apply map_rev. Qed.
Lemma gl_bump : forall q p l av, bump_candidates q (g p) av (gl l) = bump_candidates q p av l.
Proof.
  induction l as [|[c pc] l IH]; intros av; cbn [gl map bump_candidates fst snd]; auto. rewrite gle. destruct (xleb (Fin q) av); auto. destruct (xleb pc p); auto.
  fold (gl l). rewrite IH. reflexivity.
Qed.
(** the event list *)
Lemma ge_lt : forall a b, ev_ltb (ge a) (ge b) = ev_ltb a b.
Proof. intros. unfold ev_ltb. cbn. rewrite glt, geq. reflexivity. Qed.
Lemma ge_min : forall l x, ev_min (ge x) (map ge l) = ge (ev_min x l).
Proof. induction l as [|a l IH]; intros x; cbn; auto. rewrite ge_lt. destruct (ev_ltb a x); apply IH. Qed.
Lemma ge_del_seq : forall n l, ev_del_seq n (map ge l) = map ge (ev_del_seq n l).
Proof. unfold ev_del_seq. induction l as [|a l IH]; cbn; auto. destruct (e_seq a =? n)%Z; cbn; rewrite ?IH; auto. Qed.
Lemma ge_pop : forall l, ev_pop (map ge l) = option_map (fun x => (ge (fst x), map ge (snd x))) (ev_pop l).
Proof.
  intros [|a l]; cbn [map ev_pop]; auto. rewrite ge_min. cbn [option_map fst snd]. f_equal. f_equal. 
  change (e_seq (ge (ev_min a l))) with (e_seq (ev_min a l)). rewrite <- ge_del_seq. reflexivity.
Qed.
Lemma ge_del : forall c l, ev_del c (map ge l) = option_map (map ge) (ev_del c l).
Proof. induction l as [|a l IH]; cbn; auto. destruct (Nat.eqb (e_c a) c); cbn; auto. rewrite IH. destruct (ev_del c l); auto. Qed.

(** what the two states have in common *)
Lemma g_status : forall s t, env_prio s t -> forall c, c_status (comps t c) = c_status (comps s c). Proof. intros s t E c. rewrite (ep_comps _ _ E). reflexivity. Qed.
Lemma g_sched : forall s t, env_prio s t -> forall c, c_sched (comps t c) = c_sched (comps s c). Proof. intros s t E c. rewrite (ep_comps _ _ E). reflexivity. Qed.
Lemma g_rem : forall s t, env_prio s t -> forall c, c_rem (comps t c) = c_rem (comps s c). Proof. intros s t E c. rewrite (ep_comps _ _ E). reflexivity. Qed.
Lemma g_onev : forall s t, env_prio s t -> forall c, c_onev (comps t c) = c_onev (comps s c). Proof. intros s t E c. rewrite (ep_comps _ _ E). reflexivity. Qed.
Lemma g_ilevel : forall s t, env_prio s t -> forall c, c_ilevel (comps t c) = c_ilevel (comps s c). Proof. intros s t E c. rewrite (ep_comps _ _ E). reflexivity. Qed.
Lemma g_istat : forall s t, env_prio s t -> forall c, c_istat (comps t c) = c_istat (comps s c). Proof. intros s t E c. rewrite (ep_comps _ _ E). reflexivity. Qed.
Lemma g_requests : forall s t, env_prio s t -> forall c, c_requests (comps t c) = c_requests (comps s c). Proof. intros s t E c. rewrite (ep_comps _ _ E). reflexivity. Qed.
Lemma g_oneof : forall s t, env_prio s t -> forall c, c_oneof (comps t c) = c_oneof (comps s c). Proof. intros s t E c. rewrite (ep_comps _ _ E). reflexivity. Qed.
Lemma g_claims : forall s t, env_prio s t -> forall c, c_claims (comps t c) = c_claims (comps s c). Proof. intros s t E c. rewrite (ep_comps _ _ E). reflexivity. Qed.
Lemma g_waits : forall s t, env_prio s t -> forall c, c_waits (comps t c) = c_waits (comps s c). Proof. intros s t E c. rewrite (ep_comps _ _ E). reflexivity. Qed.
Lemma g_wall : forall s t, env_prio s t -> forall c, c_wall (comps t c) = c_wall (comps s c). Proof. intros s t E c. rewrite (ep_comps _ _ E). reflexivity. Qed.
Lemma g_cond : forall s t, env_prio s t -> forall c, c_cond (comps t c) = c_cond (comps s c). Proof. intros s t E c. rewrite (ep_comps _ _ E). reflexivity. Qed.
Lemma g_from : forall s t, env_prio s t -> forall c, c_from (comps t c) = c_from (comps s c). Proof. intros s t E c. rewrite (ep_comps _ _ E). reflexivity. Qed.
Lemma g_filter : forall s t, env_prio s t -> forall c, c_filter (comps t c) = c_filter (comps s c). Proof. intros s t E c. rewrite (ep_comps _ _ E). reflexivity. Qed.
Lemma g_fitem : forall s t, env_prio s t -> forall c, c_fitem (comps t c) = c_fitem (comps s c). Proof. intros s t E c. rewrite (ep_comps _ _ E). reflexivity. Qed.
Lemma g_to : forall s t, env_prio s t -> forall c, c_to (comps t c) = c_to (comps s c). Proof. intros s t E c. rewrite (ep_comps _ _ E). reflexivity. Qed.
Lemma g_titem : forall s t, env_prio s t -> forall c, c_titem (comps t c) = c_titem (comps s c). Proof. intros s t E c. rewrite (ep_comps _ _ E). reflexivity. Qed.
Lemma g_failed : forall s t, env_prio s t -> forall c, c_failed (comps t c) = c_failed (comps s c). Proof. intros s t E c. rewrite (ep_comps _ _ E). reflexivity. Qed.
Lemma g_skip : forall s t, env_prio s t -> forall c, c_skip (comps t c) = c_skip (comps s c). Proof. intros s t E c. rewrite (ep_comps _ _ E). reflexivity. Qed.
Lemma g_hasproc : forall s t, env_prio s t -> forall c, c_hasproc (comps t c) = c_hasproc (comps s c). Proof. intros s t E c. rewrite (ep_comps _ _ E). reflexivity. Qed.
Lemma g_retry : forall s t, env_prio s t -> forall c, c_retry (comps t c) = c_retry (comps s c). Proof. intros s t E c. rewrite (ep_comps _ _ E). reflexivity. Qed.
Lemma g_qs : forall s t, env_prio s t -> forall q, map fst (qs t q) = map fst (qs s q). Proof. intros s t E q. rewrite (ep_qs _ _ E). apply gl_fst. Qed.
Lemma g_len : forall s t, env_prio s t -> forall q, xlen (qs t q) = xlen (qs s q). Proof. intros s t E q. rewrite (ep_qs _ _ E). apply gl_len. Qed.
Ltac same E :=
  rewrite ?(g_status _ _ E), ?(g_sched _ _ E), ?(g_rem _ _ E), ?(g_onev _ _ E), ?(g_ilevel _ _ E), ?(g_istat _ _ E), ?(g_requests _ _ E), ?(g_oneof _ _ E), ?(g_claims _ _ E), ?(g_waits _ _ E), ?(g_wall _ _ E), ?(g_cond _ _ E), ?(g_from _ _ E), ?(g_filter _ _ E), ?(g_fitem _ _ E), ?(g_to _ _ E), ?(g_titem _ _ E), ?(g_failed _ _ E), ?(g_skip _ _ E), ?(g_hasproc _ _ E), ?(g_retry _ _ E), ?(g_qs _ _ E), ?(g_len _ _ E),
    ?(ep_now _ _ E), ?(ep_off _ _ E), ?(ep_seq _ _ E), ?(ep_stby _ _ E), ?(ep_pend _ _ E), ?(ep_cur _ _ E), ?(ep_rsc _ _ E), ?(ep_sval _ _ E), ?(ep_kcap _ _ E), ?(ep_kmav _ _ E), ?(ep_eoe _ _ E), ?(ep_running _ _ E), ?(ep_yl _ _ E), ?(ep_defcap _ _ E), ?(ep_ended _ _ E).
Ltac kget := apply r_get; let s := fresh in let t := fresh in let E := fresh in intros s t E; same E; reflexivity.
Ltac kput := apply r_put; let s := fresh in let t := fresh in let E := fresh in intros s t E; same E; destruct E; constructor; cbn; auto.
Ltac ksetc := apply r_setc; let x := fresh in intros x; destruct x; reflexivity.
Definition lines (a b : list (nat * xq)) : Prop := b = gl a.
Lemma r_line : forall q, rel lines (get (fun s => qs s q)) (get (fun s => qs s q)).
Proof. intros q. apply r_get. intros s t E. apply E. Qed.
Ltac kline := rewrite ?gl_inq, ?gl_fst, ?gl_nonnil, ?gl_hd, ?gl_next, ?gl_rev, ?gl_bump.
Ltac kstep :=
  lazymatch goal with
  | |- rel eq (bind (get (fun s => qs s _)) _) _ => eapply (r_bind _ _ lines eq); [apply r_line | let E := fresh in intros ? ? E; red in E; subst; kline]
  | |- rel eq (bind _ _) _ => apply (r_bind _ _ eq eq); [| intros ? ? <-]
  | |- rel eq (ret _) _ => apply r_ret; reflexivity
  | |- rel _ (raise _) _ => apply r_raise
  | |- rel eq (get _) _ => kget
  | |- rel eq (put _) _ => kput
  | |- rel eq (setc _ _) _ => ksetc
  | |- rel eq (setr _ _) _ => apply r_setr
  | |- rel eq (stat _) _ => apply r_stat
  | |- rel eq (when _ _) _ => apply r_when
  | |- rel eq (mfor _ _) _ => apply r_mfor; intros
  | |- rel eq (match ?x with _ => _ end) _ => first [apply r_if | destruct x]
  end; cbv beta.
Ltac kg := repeat kstep; auto with kk.
Lemma r_mq : forall q f f', (forall l, f' (gl l) = gl (f l)) -> rel eq (put (m_q q f)) (put (m_q q f')).
Proof. intros q f f' H. apply r_put. intros s t []. constructor; cbn; auto. intros x. destruct (qeqb x q); auto. rewrite ep_qs0. auto. Qed.

Lemma k_q_enter : forall q c p, rel eq (q_enter q c p) (q_enter q c (g p)).
Proof. intros. unfold q_enter. kstep. kstep; [kg|]. apply r_mq. intros. apply gl_sorted. Qed.
Lemma k_q_leave : forall q c, rel eq (q_leave q c) (q_leave q c).
Proof. intros. unfold q_leave. kstep. kstep; [|kg]. apply r_mq. intros. apply gl_adel. Qed.
Lemma k_q_prio : forall q c, rel (fun a b => b = g a) (q_prio q c) (q_prio q c).
Proof.
  intros. unfold q_prio. eapply r_bind; [apply r_line|]. intros l ? ->. rewrite gl_qprio. destruct (qprio c l); cbn [option_map]; [apply r_ret; reflexivity | apply r_raise].
Qed.
Hint Resolve k_q_enter k_q_leave : kk.
Lemma k_remove : forall c, rel eq (remove c) (remove c).
Proof.
  intros. unfold remove. apply (r_bind _ _ eq); [kget | intros b ? <-]. destruct b; [|kg].
  eapply r_bind with (R := fun a b => b = map ge a); [apply r_get; intros s t E; apply E|]. intros l ? ->. rewrite ge_del.
  destruct (ev_del c l); cbn [option_map]; kg.
Qed.
Lemma k_push : forall c a p u, rel eq (push c a p u) (push c a (g p) u).
Proof.
  intros c [a|] p u; unfold push; kg. rewrite ep_evl0, map_app. reflexivity.
Qed.
Lemma k_reschedule : forall c a p u cap, rel eq (reschedule c a p u cap) (reschedule c a (g p) u cap).
Proof.
  intros c a p u cap. unfold reschedule.
  apply (r_bind _ _ eq); [kget | intros past ? <-].
  apply (r_bind _ _ eq).
  - destruct past; [|kg]. apply (r_bind _ _ eq). { unfold capped. destruct cap; kg. } intros x ? <-.
    destruct x; kg.
  - intros x ? <-. apply (r_bind _ _ eq); [ksetc | intros _ _ _]. apply k_push; auto.
Qed.
Lemma k_reschedule0 : forall c a u cap, rel eq (reschedule c a (Fin 0) u cap) (reschedule c a (Fin 0) u cap).
Proof. intros. rewrite <- g0 at 2. apply k_reschedule. Qed.
Hint Resolve k_remove k_reschedule k_reschedule0 : kk.
Lemma k_leave_req : forall c r, rel eq (leave_req c r) (leave_req c r). Proof. intros. unfold leave_req. kstep; [kg|]. kstep. match goal with |- context [gl ?l] => destruct l; kg end. Qed.
Hint Resolve k_leave_req : kk.
Lemma k_check_fail : forall c, rel eq (check_fail c) (check_fail c). Proof. intros. unfold check_fail. kg. Qed.
Lemma k_notdata : forall c, rel eq (check_notdata c) (check_notdata c). Proof. intros. unfold check_notdata. kg. Qed.
Lemma k_notmain : forall c, rel eq (check_notmain c) (check_notmain c). Proof. intros. unfold check_notmain. kg. Qed.
Hint Resolve k_check_fail k_notdata k_notmain : kk.
Lemma k_activate : forall c a dl p u pr kr kw cap, rel eq (activate c a dl p u pr kr kw cap) (activate c a dl (g p) u pr kr kw cap).
Proof. intros. unfold activate. kg. Qed.
Lemma k_activate0 : forall c a dl u pr kr kw cap, rel eq (activate c a dl (Fin 0) u pr kr kw cap) (activate c a dl (Fin 0) u pr kr kw cap).
Proof. intros. rewrite <- g0 at 2. apply k_activate. Qed.
Hint Resolve k_activate0 : kk.
Lemma k_create : forall c a dl p u sk cap, rel eq (create c a dl p u sk cap) (create c a dl (g p) u sk cap).
Proof. intros. unfold create. kg. Qed.
Lemma k_hold : forall c sp p u i cap, rel eq (hold c sp p u i cap) (hold c sp (g p) u i cap).
Proof. intros. unfold hold, capped. kg. Qed.
Lemma k_passivate : forall c, rel eq (passivate c) (passivate c).
Proof. intros. unfold passivate. kg. Qed.
Lemma k_interrupt : forall c, rel eq (interrupt c) (interrupt c).
Proof. intros. unfold interrupt. kg. Qed.
Lemma k_resume : forall c al p u, rel eq (resume c al p u) (resume c al (g p) u).
Proof. intros. unfold resume. kg. Qed.
Lemma k_standby : forall c, rel eq (standby c) (standby c).
Proof. intros. unfold standby. kg. Qed.
Lemma k_set_remaining : forall c v p u, rel eq (set_remaining c v p u) (set_remaining c v (g p) u).
Proof. intros. unfold set_remaining. kg. Qed.
Lemma k_fail_time : forall sp, rel eq (fail_time sp) (fail_time sp).
Proof. intros sp. unfold fail_time. kg. Qed.
Hint Resolve k_fail_time : kk.
(** resources *)
Lemma k_honor_one : forall c r q, rel eq (honor_one c r q) (honor_one c r q).
Proof.
  intros. unfold honor_one. kstep; [kg|]. kstep. kstep.
  { match goal with |- context [gl ?l] => destruct l as [|[h ph] l0] end; cbn [gl map fst]; kg. }
  kstep; [kg|]. eapply (r_bind _ _ _ eq); [apply k_q_prio|]. intros p ? ->.
  match goal with |- context [gl ?l] => destruct l as [|[h ph] l0] end; cbn [gl map fst snd]; [rewrite <- g0 at 2|]; rewrite geq; kg.
Qed.
Hint Resolve k_honor_one : kk.
Lemma k_honor_all : forall c, rel eq (honor_all c) (honor_all c).
Proof.
  assert (F : forall c rq, rel eq (honor_all_from c rq) (honor_all_from c rq)) by (induction rq as [|[r q] t IH]; cbn; kg).
  intros. unfold honor_all. kg.
Qed.
Lemma k_honor_any : forall c, rel eq (honor_any c) (honor_any c).
Proof.
  assert (F : forall c rq, rel eq (honor_any_from c rq) (honor_any_from c rq)) by (induction rq as [|[r q] t IH]; cbn; kg).
  intros. unfold honor_any. kg.
Qed.
Lemma k_claim : forall c r q, rel eq (claim c r q) (claim c r q).
Proof. intros. unfold claim. kstep; [kg|]. eapply (r_bind _ _ _ eq); [apply k_q_prio|]. intros p ? ->. kg. Qed.
Hint Resolve k_honor_all k_honor_any k_claim : kk.
Lemma k_c_try : forall rt c, (forall r, rel eq (rt r) (rt r)) -> rel eq (c_try rt c) (c_try rt c).
Proof. intros. unfold c_try. kg. Qed.
Lemma k_rloop : forall ct r an first p1, (forall c, rel eq (ct c) (ct c)) -> forall n mx, rel eq (rloop ct n r an first p1 mx) (rloop ct n r an first (g p1) (gm mx)).
Proof.
  induction n; intros [[c p]|]; cbn [rloop gm option_map fst snd]; try (kg; fail). rewrite geq.
  do 4 (kstep; [solve [kg] |]). kstep. kstep; [|kg]. kstep; [auto|]. kstep. 
  match goal with |- rel eq (rloop _ _ _ _ _ _ ?x) (rloop _ _ _ _ _ _ ?y) => replace y with (gm x) by (destruct (an && _); reflexivity) end. apply IHn.
Qed.
Lemma k_r_try : forall n r, rel eq (r_try n r) (r_try n r).
Proof.
  induction n; intros; cbn [r_try]; [kg|]. kstep; [kg|]. kstep.
  match goal with |- context [gm (hd_error ?l)] => set (mx := hd_error l) end.
  replace (match gm mx with Some (c, _) => Some c | None => None end) with (match mx with Some (c, _) => Some c | None => None end) by (destruct mx as [[]|]; reflexivity).
  replace (match gm mx with Some (_, p) => p | None => Fin 0 end) with (g (match mx with Some (_, p) => p | None => Fin 0 end)) by (destruct mx as [[]|]; auto).
  repeat kstep; apply k_rloop; intros; apply k_c_try; auto.
Qed.
Hint Resolve k_r_try k_c_try : kk.
Lemma k_release1 : forall n c r q b, rel eq (release1 n c r q b) (release1 n c r q b).
Proof. intros. unfold release1. kg. Qed.
Hint Resolve k_release1 : kk.
Lemma k_release : forall n c a, rel eq (release n c a) (release n c a).
Proof. intros. unfold release. kg. Qed.
Hint Resolve k_release : kk.
Lemma k_release_claimers : forall f n r mx, rel eq (release_claimers f n r mx) (release_claimers f n r (gm mx)).
Proof. induction n; intros r [[c p]|]; cbn [release_claimers gm option_map fst snd]; kg. Qed.
Hint Resolve k_release_claimers : kk.
Lemma k_res_release : forall f r q, rel eq (res_release f r q) (res_release f r q).
Proof. intros. unfold res_release. kg. Qed.
Lemma k_set_cap : forall f r cap, rel eq (set_cap f r cap) (set_cap f r cap).
Proof. intros. unfold set_cap. kg. Qed.
Lemma k_cancel : forall f c, rel eq (cancel f c) (cancel f c).
Proof. intros. unfold cancel. kg. Qed.
Definition ga {A} (a : A * xq) : A * xq := (fst a, g (snd a)).
Lemma k_request1 : forall n c m a, rel eq (request1 n c m a) (request1 n c m (ga a)).
Proof.
  intros. unfold request1. destruct a as [[r q] p]. cbn [ga fst snd]. do 5 (kstep; [solve [kg] |]). kstep. kstep; [kg|]. kstep.
  match goal with |- context [bump_candidates ?q ?p ?av ?l] => destruct (bump_candidates q p av l) end. kg.
Qed.
Hint Resolve k_request1 : kk.
Lemma k_mfor : forall A (l : list (A * xq)) f, (forall x, rel eq (f x) (f (ga x))) -> rel eq (mfor l f) (mfor (map ga l) f).
Proof. induction l; intros f H; cbn; [apply r_ret; reflexivity | apply (r_bind _ _ eq); auto]. Qed.
Lemma k_request : forall n c a o f p u cap, rel eq (request n c a o f p u cap) (request n c (map ga a) o f (g p) u cap).
Proof.
  intros. unfold request. do 5 (kstep; [solve [kg] |]). destruct a as [|x a]; [kg|]. cbn [map]. change (ga x :: map ga a) with (map ga (x :: a)).
  kstep; [|kg]. rewrite map_length. apply k_mfor. intros. apply k_request1.
Qed.
(** states *)
Lemma k_c_trywait : forall c, rel eq (c_trywait c) (c_trywait c).
Proof.
  intros. unfold c_trywait, leave_wait. kstep; [kg|]. kstep; [kg|]. kstep.
  { apply r_get. intros s t E. unfold wait_ok. same E. reflexivity. } kg.
Qed.
Hint Resolve k_c_trywait : kk.
Lemma k_s_trywait : forall l m, rel eq (s_trywait l m) (s_trywait l m).
Proof. induction l; intros m; cbn; kg. Qed.
Hint Resolve k_s_trywait : kk.
Lemma k_st_set : forall st v, rel eq (st_set st v) (st_set st v).
Proof. intros. unfold st_set, set_sval, st_trywait. kg. Qed.
Lemma k_st_trigger : forall st v a m, rel eq (st_trigger st v a m) (st_trigger st v a m).
Proof. intros. unfold st_trigger, set_sval, st_trywait. kg. Qed.
Lemma k_wait1 : forall c a, rel eq (wait1 c a) (wait1 c (ga a)).
Proof. intros. unfold wait1. destruct a as [[st f] p]. cbn [ga fst snd]. kg. Qed.
Hint Resolve k_wait1 : kk.
Lemma k_wait : forall c a al f p u cap, rel eq (wait c a al f p u cap) (wait c (map ga a) al f (g p) u cap).
Proof. intros. unfold wait. do 6 (kstep; [solve [kg] |]). kstep; [apply k_mfor; intros; apply k_wait1 |]. kg. Qed.
Lemma k_wait_for : forall c a al f p u cap, rel eq (wait_for c a al f p u cap) (wait_for c a al f (g p) u cap).
Proof. intros. unfold wait_for. kg. Qed.
(** stores *)
Lemma k_set_kmav : forall st v, rel eq (set_kmav st v) (set_kmav st v).
Proof. intros. unfold set_kmav. kg. Qed.
Lemma k_give : forall x c, rel eq (give x c) (give x c).
Proof. intros. unfold give. kg. Qed.
Lemma k_leave_from : forall c, rel eq (leave_from c) (leave_from c).
Proof. intros. unfold leave_from. kg. Qed.
Lemma k_leave_to : forall c, rel eq (leave_to c) (leave_to c).
Proof. intros. unfold leave_to. kg. Qed.
Hint Resolve k_set_kmav k_give k_leave_from k_leave_to : kk.
Lemma find_same : forall A (f g : A -> bool) l, (forall x, f x = g x) -> find f l = find g l.
Proof. induction l; intros H; cbn; auto. rewrite H, IHl; auto. Qed.
Lemma r_tprio : forall w, rel (fun a b => b = g a) (get (fun s => c_tprio (comps s w))) (get (fun s => c_tprio (comps s w))).
Proof. intros. apply r_get. intros s t E. rewrite (ep_comps _ _ E). reflexivity. Qed.
Lemma k_item : forall n, (forall st c w, rel eq (item_enter n st c w) (item_enter n st c (gw w))) /\ (forall st c, rel eq (item_leave n st c) (item_leave n st c)).
Proof.
  induction n as [|n [IH1 IH2]]; split; intros; cbn [item_enter item_leave]; try apply r_raise.
  - kstep. kstep; [kg|]. rewrite gl_ok. kstep; [kg|]. kstep; [kg|]. kstep; [kg|]. kstep; [kg|]. kstep; [apply r_mq; intros; apply gl_at|].
    kstep; [|kg]. apply r_get. intros s t E. same E. apply find_same. intros x. same E. reflexivity.
  - kstep. kstep; [kg|]. kstep; [apply r_mq; intros; apply gl_adel|]. do 2 (kstep; [kg|]). kstep; [|kg]. kstep; [kg|].
    kstep; [|kg]. kstep; [kg|]. kstep; [|kg]. eapply (r_bind _ _ _ eq); [apply r_tprio|]. intros p ? ->. kstep; [apply (IH1 _ _ (PSorted p))|]. kg.
Qed.
Lemma k_item_enter : forall n st c w, rel eq (item_enter n st c w) (item_enter n st c (gw w)). Proof. intros. apply k_item. Qed.
Lemma k_item_sorted : forall n st c p, rel eq (item_enter n st c (PSorted p)) (item_enter n st c (PSorted (g p))). Proof. intros. apply (k_item_enter n st c (PSorted p)). Qed.
Lemma k_item_leave : forall n st c, rel eq (item_leave n st c) (item_leave n st c). Proof. intros. apply k_item. Qed.
Hint Resolve k_item_sorted k_item_leave : kk.
Lemma k_find : forall s t, env_prio s t -> forall f key ks best lk, find_item t f key best ks lk = find_item s f key best ks lk.
Proof. intros s t E f key. induction ks as [|x l IH]; intros; cbn [find_item]; auto. same E. destruct key; [apply IH|]. destruct (find f _); auto. Qed.
Lemma k_from_store : forall n c ks f key rp fl fp u cap, rel eq (from_store n c ks f key rp fl fp u cap) (from_store n c ks f key (g rp) fl (g fp) u cap).
Proof.
  intros. unfold from_store. do 5 (kstep; [solve [kg] |]). kstep; [|kg].
  apply r_get. intros s t E. symmetry. apply k_find; auto.
Qed.
Lemma k_to_try : forall n c i p ks, rel eq (to_try n c i p ks) (to_try n c i (g p) ks).
Proof. induction ks; cbn [to_try]; kg. Qed.
Hint Resolve k_to_try : kk.
Lemma k_to_store : forall n c ks i rp p fl fp u cap, rel eq (to_store n c ks i rp p fl fp u cap) (to_store n c ks i (g rp) (g p) fl (g fp) u cap).
Proof. intros. unfold to_store. kg. Qed.
Lemma k_rescan_items : forall n st x l, rel eq (rescan_items n st x l) (rescan_items n st x l).
Proof. induction l; cbn [rescan_items]; kg. Qed.
Hint Resolve k_rescan_items : kk.
Lemma k_rescan : forall n st, rel eq (rescan n st) (rescan n st).
Proof. intros. unfold rescan. kg. Qed.
Hint Resolve k_rescan : kk.
Lemma k_set_filter : forall n c f, rel eq (set_filter n c f) (set_filter n c f).
Proof. intros. unfold set_filter. kg. Qed.
Lemma k_rescan_to_loop : forall n st l, rel eq (rescan_to_loop n st l) (rescan_to_loop n st l).
Proof.
  induction l; cbn [rescan_to_loop]; [kg|]. kstep. kstep; [|kg]. kstep; [kg|]. kstep; [|kg]. kstep; [kg|]. kstep; [kg|]. kstep; [|kg].
  eapply (r_bind _ _ _ eq); [apply r_tprio|]. intros p ? ->. kg.
Qed.
Hint Resolve k_rescan_to_loop : kk.
Lemma k_st_set_cap : forall n st cap, rel eq (st_set_cap n st cap) (st_set_cap n st cap).
Proof. intros. unfold st_set_cap. kg. Qed.
(** scheduler *)
Lemma k_terminate : forall n c, rel eq (terminate n c) (terminate n c).
Proof. intros. unfold terminate. kg. Qed.
Lemma k_continue : forall n c, rel eq (continue n c) (continue n c).
Proof. intros. unfold continue. kg. Qed.
Hint Resolve k_continue : kk.
Lemma k_step_event : forall n, rel eq (step_event n) (step_event n).
Proof.
  intros. unfold step_event. do 2 (kstep; [solve [kg] |]).
  eapply r_bind with (R := fun a b => b = map ge a); [apply r_get; intros s t E; apply E|]. intros l ? ->. rewrite ge_pop.
  eapply r_bind with (R := fun a b => b = option_map ge a).
  - destruct (ev_pop l) as [[e l1]|]; cbn [option_map fst snd]; [|apply r_ret; reflexivity].
    apply (r_bind _ _ eq); [kg | intros _ _ _]. apply r_ret. reflexivity.
  - intros [e|] ? ->; cbn [option_map]; kg.
Qed.
Hint Resolve k_step_event : kk.
Lemma k_step : forall n, rel eq (step n) (step n).
Proof. intros. unfold step. kg. Qed.
Lemma k_run : forall sp p u cap, rel eq (run sp p u cap) (run sp (g p) u cap).
Proof. intros. unfold run. kg. Qed.
Lemma k_reset_now : forall x, rel eq (reset_now x) (reset_now x).
Proof. intros. unfold reset_now. kg. Qed.
End Prio.
