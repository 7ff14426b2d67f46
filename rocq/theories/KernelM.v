(** The lines of resources, states and stores: who enters and leaves where. *)
From Coq Require Import QArith Lqa List Bool Arith ZArith Lia.
From Verif Require Import Base Kernel Wp.
Import ListNotations.
Open Scope Q_scope.

(** the lines in which components wait *)
Definition in_line (q : qref) : bool := match q with QReq _ | QWait _ | QFrom _ | QTo _ => true | _ => false end.
(** the call after which component c may be waiting in a line *)
Definition joins (o : op) (c : nat) : Prop :=
  match o with
  | ORequest x _ _ _ _ _ _ | OWait x _ _ _ _ _ _ | OWaitFor x _ _ _ _ _ _ | OFromStore x _ _ _ _ _ _ _ _ | OToStore x _ _ _ _ _ _ _ _ => c = x
  | _ => False
  end.
Local Hint Extern 1 (in_line _ = true) => reflexivity : core.

(** ** Whatever is kept by entering a line at its place and by leaving it, is kept by everything (as section Generic of Wp.v) *)
Section Queues.
  Context (R : env -> env -> Prop) (PO : preorder R).
  (** R is kept by updates of components, resources, queues, standby lists and by the event list operations *)
  Context (Hc : forall c f s, R s (m_comp c f s)).
  Context (Hr : forall r f s, R s (m_rsc r f s)).
  (** a component enters a line at its place, leaves it, or an item is put anywhere in a store *)
  (** [me]: the components that may enter a line *)
  Context (me : nat -> Prop).
  Context (Hq1 : forall q c p s, me c -> in_line q = true -> inq c (qs s q) = false -> R s (m_q q (ins_sorted c p) s)).
  Context (Hq4 : forall r c p s, inq c (qs s (QClaim r)) = false -> R s (m_q (QClaim r) (ins_sorted c p) s)).
  Context (Hq2 : forall q c s, R s (m_q q (adel c) s)).
  Context (Hq3 : forall k c w s, R s (m_q (QStore k) (ins_at c w) s)).
  Context (Hremove : forall c, frames R (remove c)).
  Context (Hresched : forall c t p u cap, frames R (reschedule c t p u cap)).
  Context (Hst : forall f s, R s (s_stby f s)).
  Context (Hpd : forall f s, R s (s_pend f s)).

  Ltac g := fgo PO; auto.
  Lemma l_q_enter : forall q c p, me c -> in_line q = true -> frames R (q_enter q c p).
  Proof.
    intros q c p M L s. unfold q_enter, bind, get. destruct (inq c (qs s q)) eqn:E; cbn [fst]; [apply PO|]. apply Hq1; auto.
  Qed.
  Lemma l_q_claim : forall r c p, frames R (q_enter (QClaim r) c p).
  Proof. intros r c p s. unfold q_enter, bind, get. destruct (inq c (qs s (QClaim r))) eqn:E; cbn [fst]; [apply PO|]. apply Hq4; auto. Qed.
  Lemma l_q_leave : forall q c, frames R (q_leave q c). Proof. intros. unfold q_leave. g. Qed.
  Lemma l_q_prio : forall q c, frames R (q_prio q c). Proof. intros. unfold q_prio. g. Qed.
  Lemma l_remove : forall c, frames R (remove c). Proof. auto. Qed.
  Lemma l_reschedule : forall c t p u cap, frames R (reschedule c t p u cap). Proof. auto. Qed.
  Lemma l_leave_req : forall c r, frames R (leave_req c r).
  Proof. intros. unfold leave_req. g. apply l_q_leave. Qed.
  Lemma l_check_fail : forall c, frames R (check_fail c).
  Proof. intros. unfold check_fail. g; auto using l_leave_req, l_q_leave. Qed.
  Lemma l_check_notdata : forall c, frames R (check_notdata c). Proof. intros. unfold check_notdata. g. Qed.
  Lemma l_check_notmain : forall c, frames R (check_notmain c). Proof. intros. unfold check_notmain. g. Qed.
  Lemma l_activate : forall c a d p u pr kr kw cap, frames R (activate c a d p u pr kr kw cap).
  Proof. intros. unfold activate. g; auto using l_remove, l_check_fail, l_reschedule. Qed.
  Lemma l_create : forall c a d p u sk cap, frames R (create c a d p u sk cap).
  Proof. intros. unfold create. g; auto using l_remove, l_check_fail, l_reschedule. Qed.
  Lemma l_hold : forall c sp p u i cap, frames R (hold c sp p u i cap).
  Proof. intros. unfold hold. g; auto using l_check_notdata, l_remove, l_check_fail, l_reschedule. Qed.
  Lemma l_passivate : forall c, frames R (passivate c).
  Proof. intros. unfold passivate. g; auto using l_check_notdata, l_remove, l_check_fail, l_reschedule. Qed.
  Lemma l_interrupt : forall c, frames R (interrupt c).
  Proof. intros. unfold interrupt. g; auto using l_check_notdata, l_remove, l_check_fail, l_reschedule. Qed.
  Lemma l_resume : forall c a p u, frames R (resume c a p u).
  Proof. intros. unfold resume. g; auto using l_check_notdata, l_remove, l_check_fail, l_reschedule. Qed.
  Lemma l_standby : forall c, frames R (standby c).
  Proof. intros. unfold standby. g; auto using l_check_notdata, l_check_notmain, l_remove, l_check_fail, l_reschedule. Qed.
  Lemma l_set_remaining : forall c v p u, frames R (set_remaining c v p u).
  Proof. intros. unfold set_remaining. g; auto using l_remove, l_check_fail, l_reschedule. Qed.
  Lemma l_honor_one : forall c r q, frames R (honor_one c r q).
  Proof. intros. unfold honor_one. g; auto using l_q_prio. Qed.
  Lemma l_honor_all_from : forall c rq, frames R (honor_all_from c rq).
  Proof. induction rq as [|[r q] t IH]; cbn; g; auto using l_honor_one. Qed.
  Lemma l_honor_any_from : forall c rq, frames R (honor_any_from c rq).
  Proof. induction rq as [|[r q] t IH]; cbn; g; auto using l_honor_one. Qed.
  Lemma l_honor_all : forall c, frames R (honor_all c).
  Proof. intros. unfold honor_all. g; auto using l_honor_all_from. Qed.
  Lemma l_honor_any : forall c, frames R (honor_any c).
  Proof. intros. unfold honor_any. g; auto using l_honor_any_from. Qed.
  Lemma l_claim : forall c r q, frames R (claim c r q).
  Proof. intros. unfold claim. g; auto using l_q_prio, l_q_claim. Qed.
  Lemma l_c_try : forall rt c, (forall r, frames R (rt r)) -> frames R (c_try rt c).
  Proof.
    intros. unfold c_try. g; auto using l_honor_all, l_honor_any, l_claim, l_leave_req, l_remove, l_reschedule.
  Qed.
  Lemma l_rloop : forall ct r an first p1, (forall c, frames R (ct c)) -> forall n mx, frames R (rloop ct n r an first p1 mx).
  Proof. induction n; intros mx; cbn; destruct mx as [[c p]|]; g. Qed.
  Lemma l_r_try : forall n r, frames R (r_try n r).
  Proof. induction n; intros; cbn; g; auto; apply l_rloop; intros; apply l_c_try; auto. Qed.
  Lemma l_release1 : forall n c r q b, frames R (release1 n c r q b).
  Proof. intros. unfold release1. g; auto using l_r_try, l_q_leave. Qed.
  Lemma l_release : forall n c a, frames R (release n c a).
  Proof. intros. unfold release. g; auto using l_release1. Qed.
  Lemma l_release_claimers : forall f n r mx, frames R (release_claimers f n r mx).
  Proof. induction n; intros r mx; cbn [release_claimers]; destruct mx as [[c p]|]; g; auto using l_release. Qed.
  Lemma l_res_release : forall n r q, frames R (res_release n r q).
  Proof. intros. unfold res_release. g; auto using l_r_try, l_release_claimers. Qed.
  Lemma l_set_cap : forall n r q, frames R (set_cap n r q).
  Proof. intros. unfold set_cap. g; auto using l_r_try. Qed.
  Lemma l_cancel : forall n c, frames R (cancel n c).
  Proof. intros. unfold cancel. g; auto using l_remove, l_check_fail, l_release1. Qed.
  Lemma l_fail_time : forall sp, frames R (fail_time sp).
  Proof. intros. unfold fail_time. g. Qed.
  Lemma l_request1 : forall n c m a, me c -> frames R (request1 n c m a).
  Proof. intros. unfold request1. destruct a as [[r q] p]. g; auto using l_q_enter, l_release1, l_activate. Qed.
  Lemma l_request : forall n c a o f p u cap, me c -> frames R (request n c a o f p u cap).
  Proof.
    intros. unfold request.
    g; auto using l_check_notdata, l_check_notmain, l_remove, l_check_fail, l_fail_time, l_reschedule, l_request1, l_c_try, l_r_try.
  Qed.
  Lemma l_c_trywait : forall c, frames R (c_trywait c).
  Proof. intros. unfold c_trywait, leave_wait. g; auto using l_q_leave, l_remove, l_reschedule. Qed.
  Lemma l_s_trywait : forall l m, frames R (s_trywait l m).
  Proof. induction l; intros m; cbn; g; auto using l_c_trywait. Qed.
  Lemma l_wait1 : forall c a, me c -> frames R (wait1 c a).
  Proof. intros. unfold wait1. destruct a as [[st f] p]. g; auto using l_q_enter. Qed.
  Lemma l_wait : forall c a al f p u cap, me c -> frames R (wait c a al f p u cap).
  Proof.
    intros. unfold wait.
    g; auto using l_check_notdata, l_check_notmain, l_remove, l_check_fail, l_fail_time, l_reschedule, l_wait1, l_c_trywait.
  Qed.
  Lemma l_wait_for : forall c a al f p u cap, me c -> frames R (wait_for c a al f p u cap).
  Proof.
    intros. unfold wait_for.
    g; auto using l_check_notdata, l_check_notmain, l_remove, l_check_fail, l_fail_time, l_reschedule, l_q_enter, l_c_trywait.
  Qed.
  Lemma l_terminate : forall n c, frames R (terminate n c).
  Proof. intros. unfold terminate. g; auto using l_release1. Qed.
  Lemma l_continue : forall n c, frames R (continue n c).
  Proof. intros. unfold continue. g; auto using l_r_try. Qed.
  Lemma l_give : forall d c, frames R (give d c).
  Proof. intros. unfold give. g; auto using l_remove, l_reschedule. Qed.
  Lemma l_leave_from : forall d, frames R (leave_from d).
  Proof. intros. unfold leave_from. g; auto using l_q_leave. Qed.
  Lemma l_leave_to : forall d, frames R (leave_to d).
  Proof. intros. unfold leave_to. g; auto using l_q_leave. Qed.

  (** state values *)
  Context (Hsv : forall f s, R s (s_sval f s)).
  Lemma l_st_set : forall st v, frames R (st_set st v).
  Proof. intros. unfold st_set, set_sval, st_trywait. g; auto using l_s_trywait. Qed.
  Lemma l_st_trigger : forall st v a m, frames R (st_trigger st v a m).
  Proof. intros. unfold st_trigger, set_sval, st_trywait. g; auto using l_s_trywait. Qed.

  (** stores *)
  Context (Hkm : forall f s, R s (s_kmav f s)).
  Context (Hkc : forall f s, R s (s_kcap f s)).
  Lemma l_set_kmav : forall k v, frames R (set_kmav k v).
  Proof. intros. unfold set_kmav. g. Qed.
  Lemma l_item : forall n, (forall k c w, frames R (item_enter n k c w)) /\ (forall k c, frames R (item_leave n k c)).
  Proof.
    induction n as [|n [IH1 IH2]]; split; intros; cbn;
      g; auto using l_set_kmav, l_leave_from, l_leave_to, l_give, l_remove, l_reschedule.
  Qed.
  Lemma l_item_enter : forall n k c w, frames R (item_enter n k c w). Proof. intros. apply l_item. Qed.
  Lemma l_item_leave : forall n k c, frames R (item_leave n k c). Proof. intros. apply l_item. Qed.
  Lemma l_from_store : forall n c ks f key rp fl fp u cap, me c -> frames R (from_store n c ks f key rp fl fp u cap).
  Proof.
    intros. unfold from_store.
    g; auto using l_check_notdata, l_check_notmain, l_remove, l_check_fail, l_fail_time, l_reschedule, l_q_enter, l_item_leave.
  Qed.
  Lemma l_to_try : forall n c i p ks, frames R (to_try n c i p ks).
  Proof. induction ks; cbn; g; auto using l_item_enter, l_remove, l_reschedule. Qed.
  Lemma l_to_store : forall n c ks i rp p fl fp u cap, me c -> frames R (to_store n c ks i rp p fl fp u cap).
  Proof.
    intros. unfold to_store.
    g; auto using l_check_notdata, l_check_notmain, l_remove, l_check_fail, l_fail_time, l_reschedule, l_q_enter, l_to_try.
  Qed.
  Lemma l_rescan_items : forall n k d l, frames R (rescan_items n k d l).
  Proof. induction l; cbn; g; auto using l_leave_from, l_item_leave, l_give. Qed.
  Lemma l_rescan : forall n k, frames R (rescan n k).
  Proof. intros. unfold rescan. g; auto using l_rescan_items. Qed.
  Lemma l_set_filter : forall n c f, frames R (set_filter n c f).
  Proof. intros. unfold set_filter. g; auto using l_rescan. Qed.
  Lemma l_rescan_to_loop : forall n k l, frames R (rescan_to_loop n k l).
  Proof. induction l; cbn; g; auto using l_leave_to, l_item_enter, l_remove, l_reschedule. Qed.
  Lemma l_st_set_cap : forall n k cap, frames R (st_set_cap n k cap).
  Proof. intros. unfold st_set_cap. g; auto using l_set_kmav, l_rescan_to_loop. Qed.

  (** all operations except OStep; needs the environment's flags too *)
  Context (Heoe : forall f s, R s (s_eoe f s)).
  Context (Hrun : forall s, R s (s_running true s)).
  Lemma l_run : forall sp p u cap, frames R (run sp p u cap).
  Proof. intros. unfold run. g; auto using l_reschedule. Qed.
  Context (Hoff : forall f s, R s (s_off f s)).
  Context (Hev : forall f s, R s (s_evl f s)).
  Context (Hnow : forall f s, R s (s_now f s)).
  Context (Hcur : forall f s, R s (s_cur f s)).
  Context (Hstop : forall s, R s (s_running false s)).
  Context (Hend : forall s, R s (s_ended true s)).
  Lemma l_step_event : forall n, frames R (step_event n).
  Proof. intros. unfold step_event. g; auto using l_check_fail, l_continue. Qed.
  Lemma l_step : forall n, frames R (step n).
  Proof. intros. unfold step. g; auto using l_step_event, l_check_fail, l_continue. Qed.
  Lemma l_exec : forall n o, (forall c, joins o c -> me c) -> frames R (exec n o).
  Proof.
    intros n o H. destruct o; cbn [exec joins] in *;
      auto using l_create, l_activate, l_hold, l_passivate, l_interrupt, l_resume, l_cancel, l_standby,
        l_set_remaining, l_request, l_release, l_res_release, l_set_cap, l_wait, l_wait_for, l_st_set,
        l_st_trigger, l_from_store, l_to_store, l_item_enter, l_item_leave, l_st_set_cap, l_rescan,
        l_set_filter, l_run, l_step; unfold reset_now; g; auto using l_terminate.
  Qed.
End Queues.
