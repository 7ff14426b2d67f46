(** Program logic for the monad of Kernel.v: weakest preconditions (with an exceptional
    postcondition) and frame relations. *)
From Coq Require Import QArith List Bool Arith ZArith Lia.
From Verif Require Import Base Kernel.
Import ListNotations.

Definition wp {A} (m : M A) (Q : A -> env -> Prop) (X : exn -> env -> Prop) (s : env) : Prop :=
  match m s with
  | (s', Ok a) => Q a s'
  | (s', Er e) => X e s'
  end.

Lemma wp_ret : forall A (a : A) (Q : A -> env -> Prop) X s, Q a s -> wp (ret a) Q X s.
Proof. auto. Qed.
Lemma wp_raise : forall A e (Q : A -> env -> Prop) (X : exn -> env -> Prop) s, X e s -> wp (raise e) Q X s.
Proof. auto. Qed.
Lemma wp_get : forall A (f : env -> A) (Q : A -> env -> Prop) X s, Q (f s) s -> wp (get f) Q X s.
Proof. auto. Qed.
Lemma wp_put : forall f (Q : unit -> env -> Prop) X s, Q tt (f s) -> wp (put f) Q X s.
Proof. auto. Qed.
Lemma wp_setc : forall c f (Q : unit -> env -> Prop) X s, Q tt (m_comp c f s) -> wp (setc c f) Q X s.
Proof. auto. Qed.
Lemma wp_setr : forall c f (Q : unit -> env -> Prop) X s, Q tt (m_rsc c f s) -> wp (setr c f) Q X s.
Proof. auto. Qed.
Lemma wp_stat : forall c (Q : status -> env -> Prop) X s, Q (c_status (comps s c)) s -> wp (stat c) Q X s.
Proof. auto. Qed.
Lemma wp_bind : forall A B (m : M A) (k : A -> M B) Q X s,
  wp m (fun a s' => wp (k a) Q X s') X s -> wp (bind m k) Q X s.
Proof. unfold wp, bind. intros. destruct (m s) as [s' [a|e]]; auto. Qed.
Lemma wp_conseq : forall A (m : M A) (Q Q' : A -> env -> Prop) (X X' : exn -> env -> Prop) s,
  wp m Q X s -> (forall a s', Q a s' -> Q' a s') -> (forall e s', X e s' -> X' e s') -> wp m Q' X' s.
Proof. unfold wp. intros. destruct (m s) as [s' [a|e]]; auto. Qed.
Lemma wp_if : forall A (b : bool) (m1 m2 : M A) Q X s,
  (b = true -> wp m1 Q X s) -> (b = false -> wp m2 Q X s) -> wp (if b then m1 else m2) Q X s.
Proof. intros. destruct b; auto. Qed.
Lemma wp_when : forall (b : bool) m (Q : unit -> env -> Prop) X s,
  (b = true -> wp m Q X s) -> (b = false -> Q tt s) -> wp (when b m) Q X s.
Proof. intros. destruct b; cbn; auto. Qed.
(** loop rule; the invariant sees the items still to be done *)
Lemma wp_mfor : forall A (f : A -> M unit) (I : list A -> env -> Prop) X l s,
  I l s ->
  (forall x t s, I (x :: t) s -> wp (f x) (fun _ s' => I t s') X s) ->
  wp (mfor l f) (fun _ s' => I [] s') X s.
Proof.
  induction l as [|x t IH]; intros s H0 Hs; cbn [mfor].
  - apply wp_ret. exact H0.
  - apply wp_bind. eapply wp_conseq; [apply (Hs x t s H0) | |]; cbn; auto.
Qed.
(** simple loop rule *)
Lemma wp_mfor_inv : forall A (f : A -> M unit) (I : env -> Prop) X l s,
  I s -> (forall x s, In x l -> I s -> wp (f x) (fun _ s' => I s') X s) ->
  wp (mfor l f) (fun _ s' => I s') X s.
Proof.
  induction l as [|x t IH]; intros s H0 Hs; cbn [mfor].
  - apply wp_ret. exact H0.
  - apply wp_bind. eapply wp_conseq; [apply (Hs x s (or_introl eq_refl) H0) | |]; cbn; auto.
    intros. apply IH; auto. intros. apply Hs; auto. right; auto.
Qed.
Lemma wp_fst : forall A (m : M A) (I : env -> Prop) s,
  wp m (fun _ s' => I s') (fun _ s' => I s') s -> I (fst (m s)).
Proof. unfold wp. intros. destruct (m s) as [s' [a|e]]; auto. Qed.
Lemma wp_of_fst : forall A (m : M A) (I : env -> Prop) s,
  I (fst (m s)) -> wp m (fun _ s' => I s') (fun _ s' => I s') s.
Proof. unfold wp. intros. destruct (m s) as [s' [a|e]]; auto. Qed.
Lemma wp_and : forall A (m : M A) (Q1 Q2 : A -> env -> Prop) (X1 X2 : exn -> env -> Prop) s,
  wp m Q1 X1 s -> wp m Q2 X2 s -> wp m (fun a s' => Q1 a s' /\ Q2 a s') (fun e s' => X1 e s' /\ X2 e s') s.
Proof. unfold wp. intros. destruct (m s) as [s' [a|e]]; auto. Qed.
Lemma wp_ok : forall A (m : M A) Q X s s' (a : A), wp m Q X s -> m s = (s', Ok a) -> Q a s'.
Proof. unfold wp. intros. rewrite H0 in H. auto. Qed.
Lemma wp_er : forall A (m : M A) Q X s s' e, wp m Q X s -> m s = (s', Er e) -> X e s'.
Proof. unfold wp. intros. rewrite H0 in H. auto. Qed.

(** symbolic execution *)
Ltac wstep :=
  lazymatch goal with
  | |- wp (bind _ _) _ _ _ => apply wp_bind
  | |- wp (ret _) _ _ _ => apply wp_ret
  | |- wp (raise _) _ _ _ => apply wp_raise
  | |- wp (get _) _ _ _ => apply wp_get
  | |- wp (put _) _ _ _ => apply wp_put
  | |- wp (setc _ _) _ _ _ => apply wp_setc
  | |- wp (setr _ _) _ _ _ => apply wp_setr
  | |- wp (stat _) _ _ _ => apply wp_stat
  | |- wp (when _ _) _ _ _ => apply wp_when; intros
  | |- wp (match ?x with _ => _ end) _ _ _ => first [apply wp_if; intros | destruct x eqn:?]
  end; cbv beta.
Ltac wgo := repeat wstep.

(** Projections of updated states *)
Lemma comps_m_comp : forall c f s x, comps (m_comp c f s) x = if Nat.eqb x c then f (comps s c) else comps s x.
Proof. reflexivity. Qed.
Lemma comps_same : forall c f s, comps (m_comp c f s) c = f (comps s c).
Proof. intros. rewrite comps_m_comp, Nat.eqb_refl. auto. Qed.
Lemma comps_diff : forall c f s x, x <> c -> comps (m_comp c f s) x = comps s x.
Proof. intros. rewrite comps_m_comp. destruct (Nat.eqb_spec x c); congruence. Qed.
Lemma qeqb_iff : forall a b, qeqb a b = true <-> a = b.
Proof.
  destruct a, b; cbn; try (split; congruence);
    rewrite Nat.eqb_eq; split; congruence.
Qed.
Lemma qeqb_refl : forall a, qeqb a a = true.
Proof. intros. apply qeqb_iff. auto. Qed.
Lemma qeqb_spec : forall a b, reflect (a = b) (qeqb a b).
Proof. intros. apply iff_reflect. symmetry. apply qeqb_iff. Qed.
Lemma qs_m_q : forall q f s x, qs (m_q q f s) x = if qeqb x q then f (qs s q) else qs s x.
Proof. reflexivity. Qed.
Lemma steqb_iff : forall a b, steqb a b = true <-> a = b.
Proof. destruct a, b; cbn; split; congruence. Qed.
Lemma steqb_false_iff : forall a b, steqb a b = false <-> a <> b.
Proof. intros. rewrite <- steqb_iff. destruct (steqb a b); split; congruence. Qed.
Lemma steqb_spec : forall a b, reflect (a = b) (steqb a b).
Proof. intros. apply iff_reflect. symmetry. apply steqb_iff. Qed.
Lemma nonnil_false : forall A (l : list A), nonnil l = false <-> l = [].
Proof. destruct l; cbn; split; congruence. Qed.
Lemma nonnil_true : forall A (l : list A), nonnil l = true <-> l <> [].
Proof. destruct l; cbn; split; congruence. Qed.

(** Frame relations: [frames R m]: whatever m does, normal or exceptional, the states are related by R *)
Definition frames {A} (R : env -> env -> Prop) (m : M A) : Prop := forall s, R s (fst (m s)).

Record preorder (R : env -> env -> Prop) : Prop := {
  po_refl : forall s, R s s;
  po_trans : forall a b c, R a b -> R b c -> R a c }.

Section Frames.
  Context (R : env -> env -> Prop) (PO : preorder R).

  Lemma fr_ret : forall A (a : A), frames R (ret a).
  Proof. intros A a s. apply PO. Qed.
  Lemma fr_raise : forall A e, frames R (@raise A e).
  Proof. intros A a s. apply PO. Qed.
  Lemma fr_get : forall A (f : env -> A), frames R (get f).
  Proof. intros A a s. apply PO. Qed.
  Lemma fr_stat : forall c, frames R (stat c).
  Proof. intros c s. apply PO. Qed.
  Lemma fr_put : forall f, (forall s, R s (f s)) -> frames R (put f).
  Proof. intros f H s. apply H. Qed.
  Lemma fr_setc : forall c f, (forall s, R s (m_comp c f s)) -> frames R (setc c f).
  Proof. intros c f H s. apply H. Qed.
  Lemma fr_setr : forall c f, (forall s, R s (m_rsc c f s)) -> frames R (setr c f).
  Proof. intros c f H s. apply H. Qed.
  Lemma fr_bind : forall A B (m : M A) (k : A -> M B),
    frames R m -> (forall a, frames R (k a)) -> frames R (bind m k).
  Proof.
    intros A B m k Hm Hk s. unfold bind. specialize (Hm s).
    destruct (m s) as [s' [a|e]]; cbn in *; auto.
    eapply po_trans; [apply PO | apply Hm | apply (Hk a s')].
  Qed.
  Lemma fr_if : forall A (b : bool) (m1 m2 : M A), frames R m1 -> frames R m2 -> frames R (if b then m1 else m2).
  Proof. intros. destruct b; auto. Qed.
  Lemma fr_when : forall (b : bool) m, frames R m -> frames R (when b m).
  Proof. intros. destruct b; cbn; auto. apply fr_ret. Qed.
  Lemma fr_mfor : forall A (l : list A) f, (forall x, frames R (f x)) -> frames R (mfor l f).
  Proof.
    induction l; intros; cbn; [apply fr_ret | apply fr_bind; auto].
  Qed.
End Frames.

Lemma frames_wp : forall A R (m : M A) s, frames R m -> wp m (fun _ s' => R s s') (fun _ s' => R s s') s.
Proof. intros. apply wp_of_fst. apply H. Qed.

(** one step of a frame proof; [po]: proof of [preorder R] *)
Ltac fstep po :=
  lazymatch goal with
  | |- frames _ (bind _ _) => apply (fr_bind _ po); [| intros]
  | |- frames _ (ret _) => apply (fr_ret _ po)
  | |- frames _ (raise _) => apply (fr_raise _ po)
  | |- frames _ (get _) => apply (fr_get _ po)
  | |- frames _ (put _) => apply fr_put; intros
  | |- frames _ (setc _ _) => apply fr_setc; intros
  | |- frames _ (setr _ _) => apply fr_setr; intros
  | |- frames _ (stat _) => apply (fr_stat _ po)
  | |- frames _ (when _ _) => apply (fr_when _ po)
  | |- frames _ (mfor _ _) => apply (fr_mfor _ po); intros
  | |- frames _ (match ?x with _ => _ end) => first [apply fr_if | destruct x]
  end; cbv beta.
Ltac fgo po := repeat fstep po.

(** ** Frame of everything built from the kernel's primitive updates *)
Section Generic.
  Context (R : env -> env -> Prop) (PO : preorder R).
  (** R is kept by updates of components, resources, queues, standby lists and by the event list operations *)
  Context (Hc : forall c f s, R s (m_comp c f s)).
  Context (Hr : forall r f s, R s (m_rsc r f s)).
  Context (Hq : forall q f s, R s (m_q q f s)).
  Context (Hremove : forall c, frames R (remove c)).
  Context (Hresched : forall c t p u cap, frames R (reschedule c t p u cap)).
  Context (Hst : forall f s, R s (s_stby f s)).
  Context (Hpd : forall f s, R s (s_pend f s)).

  Ltac g := fgo PO; auto.
  Lemma g_q_enter : forall q c p, frames R (q_enter q c p). Proof. intros. unfold q_enter. g. Qed.
  Lemma g_q_leave : forall q c, frames R (q_leave q c). Proof. intros. unfold q_leave. g. Qed.
  Lemma g_q_prio : forall q c, frames R (q_prio q c). Proof. intros. unfold q_prio. g. Qed.
  Lemma g_remove : forall c, frames R (remove c). Proof. auto. Qed.
  Lemma g_reschedule : forall c t p u cap, frames R (reschedule c t p u cap). Proof. auto. Qed.
  Lemma g_leave_req : forall c r, frames R (leave_req c r).
  Proof. intros. unfold leave_req. g. apply g_q_leave. Qed.
  Lemma g_check_fail : forall c, frames R (check_fail c).
  Proof. intros. unfold check_fail. g; auto using g_leave_req, g_q_leave. Qed.
  Lemma g_check_notdata : forall c, frames R (check_notdata c). Proof. intros. unfold check_notdata. g. Qed.
  Lemma g_check_notmain : forall c, frames R (check_notmain c). Proof. intros. unfold check_notmain. g. Qed.
  Lemma g_activate : forall c a d p u pr kr kw cap, frames R (activate c a d p u pr kr kw cap).
  Proof. intros. unfold activate. g; auto using g_remove, g_check_fail, g_reschedule. Qed.
  Lemma g_create : forall c a d p u sk cap, frames R (create c a d p u sk cap).
  Proof. intros. unfold create. g; auto using g_remove, g_check_fail, g_reschedule. Qed.
  Lemma g_hold : forall c sp p u i cap, frames R (hold c sp p u i cap).
  Proof. intros. unfold hold. g; auto using g_check_notdata, g_remove, g_check_fail, g_reschedule. Qed.
  Lemma g_passivate : forall c, frames R (passivate c).
  Proof. intros. unfold passivate. g; auto using g_check_notdata, g_remove, g_check_fail, g_reschedule. Qed.
  Lemma g_interrupt : forall c, frames R (interrupt c).
  Proof. intros. unfold interrupt. g; auto using g_check_notdata, g_remove, g_check_fail, g_reschedule. Qed.
  Lemma g_resume : forall c a p u, frames R (resume c a p u).
  Proof. intros. unfold resume. g; auto using g_check_notdata, g_remove, g_check_fail, g_reschedule. Qed.
  Lemma g_standby : forall c, frames R (standby c).
  Proof. intros. unfold standby. g; auto using g_check_notdata, g_check_notmain, g_remove, g_check_fail, g_reschedule. Qed.
  Lemma g_set_remaining : forall c v p u, frames R (set_remaining c v p u).
  Proof. intros. unfold set_remaining. g; auto using g_remove, g_check_fail, g_reschedule. Qed.
  Lemma g_honor_one : forall c r q, frames R (honor_one c r q).
  Proof. intros. unfold honor_one. g; auto using g_q_prio. Qed.
  Lemma g_honor_all_from : forall c rq, frames R (honor_all_from c rq).
  Proof. induction rq as [|[r q] t IH]; cbn; g; auto using g_honor_one. Qed.
  Lemma g_honor_any_from : forall c rq, frames R (honor_any_from c rq).
  Proof. induction rq as [|[r q] t IH]; cbn; g; auto using g_honor_one. Qed.
  Lemma g_honor_all : forall c, frames R (honor_all c).
  Proof. intros. unfold honor_all. g; auto using g_honor_all_from. Qed.
  Lemma g_honor_any : forall c, frames R (honor_any c).
  Proof. intros. unfold honor_any. g; auto using g_honor_any_from. Qed.
  Lemma g_claim : forall c r q, frames R (claim c r q).
  Proof. intros. unfold claim. g; auto using g_q_prio, g_q_enter. Qed.
  Lemma g_c_try : forall rt c, (forall r, frames R (rt r)) -> frames R (c_try rt c).
  Proof.
    intros. unfold c_try. g; auto using g_honor_all, g_honor_any, g_claim, g_leave_req, g_remove, g_reschedule.
  Qed.
  Lemma g_rloop : forall ct r an first p1, (forall c, frames R (ct c)) -> forall n mx, frames R (rloop ct n r an first p1 mx).
  Proof. induction n; intros mx; cbn; destruct mx as [[c p]|]; g. Qed.
  Lemma g_r_try : forall n r, frames R (r_try n r).
  Proof. induction n; intros; cbn; g; auto; apply g_rloop; intros; apply g_c_try; auto. Qed.
  Lemma g_release1 : forall n c r q b, frames R (release1 n c r q b).
  Proof. intros. unfold release1. g; auto using g_r_try, g_q_leave. Qed.
  Lemma g_release : forall n c a, frames R (release n c a).
  Proof. intros. unfold release. g; auto using g_release1. Qed.
  Lemma g_release_claimers : forall f n r mx, frames R (release_claimers f n r mx).
  Proof. induction n; intros r mx; cbn [release_claimers]; destruct mx as [[c p]|]; g; auto using g_release. Qed.
  Lemma g_res_release : forall n r q, frames R (res_release n r q).
  Proof. intros. unfold res_release. g; auto using g_r_try, g_release_claimers. Qed.
  Lemma g_set_cap : forall n r q, frames R (set_cap n r q).
  Proof. intros. unfold set_cap. g; auto using g_r_try. Qed.
  Lemma g_cancel : forall n c, frames R (cancel n c).
  Proof. intros. unfold cancel. g; auto using g_remove, g_check_fail, g_release1. Qed.
  Lemma g_fail_time : forall sp, frames R (fail_time sp).
  Proof. intros. unfold fail_time. g. Qed.
  Lemma g_request1 : forall n c m a, frames R (request1 n c m a).
  Proof. intros. unfold request1. destruct a as [[r q] p]. g; auto using g_q_enter, g_release1, g_activate. Qed.
  Lemma g_request : forall n c a o f p u cap, frames R (request n c a o f p u cap).
  Proof.
    intros. unfold request.
    g; auto using g_check_notdata, g_check_notmain, g_remove, g_check_fail, g_fail_time, g_reschedule, g_request1, g_c_try, g_r_try.
  Qed.
  Lemma g_c_trywait : forall c, frames R (c_trywait c).
  Proof. intros. unfold c_trywait, leave_wait. g; auto using g_q_leave, g_remove, g_reschedule. Qed.
  Lemma g_s_trywait : forall l m, frames R (s_trywait l m).
  Proof. induction l; intros m; cbn; g; auto using g_c_trywait. Qed.
  Lemma g_wait1 : forall c a, frames R (wait1 c a).
  Proof. intros. unfold wait1. destruct a as [[st f] p]. g; auto using g_q_enter. Qed.
  Lemma g_wait : forall c a al f p u cap, frames R (wait c a al f p u cap).
  Proof.
    intros. unfold wait.
    g; auto using g_check_notdata, g_check_notmain, g_remove, g_check_fail, g_fail_time, g_reschedule, g_wait1, g_c_trywait.
  Qed.
  Lemma g_wait_for : forall c a al f p u cap, frames R (wait_for c a al f p u cap).
  Proof.
    intros. unfold wait_for.
    g; auto using g_check_notdata, g_check_notmain, g_remove, g_check_fail, g_fail_time, g_reschedule, g_q_enter, g_c_trywait.
  Qed.
  Lemma g_terminate : forall n c, frames R (terminate n c).
  Proof. intros. unfold terminate. g; auto using g_release1. Qed.
  Lemma g_continue : forall n c, frames R (continue n c).
  Proof. intros. unfold continue. g; auto using g_r_try. Qed.
  Lemma g_give : forall d c, frames R (give d c).
  Proof. intros. unfold give. g; auto using g_remove, g_reschedule. Qed.
  Lemma g_leave_from : forall d, frames R (leave_from d).
  Proof. intros. unfold leave_from. g; auto using g_q_leave. Qed.
  Lemma g_leave_to : forall d, frames R (leave_to d).
  Proof. intros. unfold leave_to. g; auto using g_q_leave. Qed.

  (** state values *)
  Context (Hsv : forall f s, R s (s_sval f s)).
  Lemma g_st_set : forall st v, frames R (st_set st v).
  Proof. intros. unfold st_set, set_sval, st_trywait. g; auto using g_s_trywait. Qed.
  Lemma g_st_trigger : forall st v a m, frames R (st_trigger st v a m).
  Proof. intros. unfold st_trigger, set_sval, st_trywait. g; auto using g_s_trywait. Qed.

  (** stores *)
  Context (Hkm : forall f s, R s (s_kmav f s)).
  Context (Hkc : forall f s, R s (s_kcap f s)).
  Lemma g_set_kmav : forall k v, frames R (set_kmav k v).
  Proof. intros. unfold set_kmav. g. Qed.
  Lemma g_item : forall n, (forall k c w, frames R (item_enter n k c w)) /\ (forall k c, frames R (item_leave n k c)).
  Proof.
    induction n as [|n [IH1 IH2]]; split; intros; cbn;
      g; auto using g_set_kmav, g_leave_from, g_leave_to, g_give, g_remove, g_reschedule.
  Qed.
  Lemma g_item_enter : forall n k c w, frames R (item_enter n k c w). Proof. intros. apply g_item. Qed.
  Lemma g_item_leave : forall n k c, frames R (item_leave n k c). Proof. intros. apply g_item. Qed.
  Lemma g_from_store : forall n c ks f key rp fl fp u cap, frames R (from_store n c ks f key rp fl fp u cap).
  Proof.
    intros. unfold from_store.
    g; auto using g_check_notdata, g_check_notmain, g_remove, g_check_fail, g_fail_time, g_reschedule, g_q_enter, g_item_leave.
  Qed.
  Lemma g_to_try : forall n c i p ks, frames R (to_try n c i p ks).
  Proof. induction ks; cbn; g; auto using g_item_enter, g_remove, g_reschedule. Qed.
  Lemma g_to_store : forall n c ks i rp p fl fp u cap, frames R (to_store n c ks i rp p fl fp u cap).
  Proof.
    intros. unfold to_store.
    g; auto using g_check_notdata, g_check_notmain, g_remove, g_check_fail, g_fail_time, g_reschedule, g_q_enter, g_to_try.
  Qed.
  Lemma g_rescan_items : forall n k d l, frames R (rescan_items n k d l).
  Proof. induction l; cbn; g; auto using g_leave_from, g_item_leave, g_give. Qed.
  Lemma g_rescan : forall n k, frames R (rescan n k).
  Proof. intros. unfold rescan. g; auto using g_rescan_items. Qed.
  Lemma g_set_filter : forall n c f, frames R (set_filter n c f).
  Proof. intros. unfold set_filter. g; auto using g_rescan. Qed.
  Lemma g_rescan_to_loop : forall n k l, frames R (rescan_to_loop n k l).
  Proof. induction l; cbn; g; auto using g_leave_to, g_item_enter, g_remove, g_reschedule. Qed.
  Lemma g_st_set_cap : forall n k cap, frames R (st_set_cap n k cap).
  Proof. intros. unfold st_set_cap. g; auto using g_set_kmav, g_rescan_to_loop. Qed.

  (** all operations except OStep; needs the environment's flags too *)
  Context (Heoe : forall f s, R s (s_eoe f s)).
  Context (Hrun : forall s, R s (s_running true s)).
  Lemma g_run : forall sp p u cap, frames R (run sp p u cap).
  Proof. intros. unfold run. g; auto using g_reschedule. Qed.
  Lemma g_exec_nr : forall n o, o <> OStep -> (forall x, o <> OResetNow x) -> frames R (exec n o).
  Proof.
    intros n o H H'. destruct o; cbn [exec]; try congruence;
      auto using g_create, g_activate, g_hold, g_passivate, g_interrupt, g_resume, g_cancel, g_standby,
        g_set_remaining, g_request, g_release, g_res_release, g_set_cap, g_wait, g_wait_for, g_st_set,
        g_st_trigger, g_from_store, g_to_store, g_item_enter, g_item_leave, g_st_set_cap, g_rescan,
        g_set_filter, g_run; try (exfalso; eapply H'; reflexivity); g; auto using g_terminate.
  Qed.
  Context (Hoff : forall f s, R s (s_off f s)).
  Lemma g_exec : forall n o, o <> OStep -> frames R (exec n o).
  Proof.
    intros n o H.
    assert (D : (exists x, o = OResetNow x) \/ forall x, o <> OResetNow x)
      by (destruct o; try (right; discriminate); left; eauto).
    destruct D as [(x & ->)|D]; [|apply g_exec_nr; auto]. cbn [exec]. unfold reset_now. g.
  Qed.
End Generic.
