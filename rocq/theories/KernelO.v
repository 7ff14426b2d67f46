(** Calls without an absolute time do not depend on the offset set by reset_now (part of C12). *)
From Coq Require Import QArith Lqa List Bool Arith ZArith Lia.
From Verif Require Import Base Kernel Wp.
Import ListNotations.
Open Scope Q_scope.

(** the outcome is the same whatever the offset, which is left alone *)
Definition indep {A} (m : M A) : Prop := forall s y, m (s_off y s) = (s_off y (fst (m s)), snd (m s)).
Definition relative (sp : spec) : Prop := match sp with STill _ => False | _ => True end.

Lemma in_ret : forall A (a : A), indep (ret a). Proof. intros A a s y. reflexivity. Qed.
Lemma in_raise : forall A e, indep (@raise A e). Proof. intros A a s y. reflexivity. Qed.
Lemma in_get : forall A (f : env -> A), (forall s y, f (s_off y s) = f s) -> indep (get f).
Proof. intros A f H s y. unfold get. cbn. rewrite H. reflexivity. Qed.
Lemma in_put : forall f, (forall s y, f (s_off y s) = s_off y (f s)) -> indep (put f).
Proof. intros f H s y. unfold put. cbn. rewrite H. reflexivity. Qed.
Lemma in_stat : forall c, indep (stat c). Proof. intros c s y. reflexivity. Qed.
Lemma in_setc : forall c f, indep (setc c f). Proof. intros c f s y. reflexivity. Qed.
Lemma in_setr : forall c f, indep (setr c f). Proof. intros c f s y. reflexivity. Qed.
Lemma in_bind : forall A B (m : M A) (k : A -> M B), indep m -> (forall a, indep (k a)) -> indep (bind m k).
Proof.
  intros A B m k Hm Hk s y. unfold bind. rewrite (Hm s y). destruct (m s) as [s' [a|e]]; cbn; auto. apply (Hk a s' y).
Qed.
Lemma in_if : forall A (b : bool) (m1 m2 : M A), indep m1 -> indep m2 -> indep (if b then m1 else m2).
Proof. intros. destruct b; auto. Qed.
Lemma in_when : forall (b : bool) m, indep m -> indep (when b m).
Proof. intros. destruct b; cbn; auto. apply in_ret. Qed.
Lemma in_mfor : forall A (l : list A) f, (forall x, indep (f x)) -> indep (mfor l f).
Proof. induction l; intros; cbn; [apply in_ret | apply in_bind; auto]. Qed.
Ltac istep :=
  lazymatch goal with
  | |- indep (bind _ _) => apply in_bind; [| intros]
  | |- indep (ret _) => apply in_ret
  | |- indep (raise _) => apply in_raise
  | |- indep (get _) => apply in_get; intros; reflexivity
  | |- indep (put _) => apply in_put; intros; reflexivity
  | |- indep (setc _ _) => apply in_setc
  | |- indep (setr _ _) => apply in_setr
  | |- indep (stat _) => apply in_stat
  | |- indep (when _ _) => apply in_when
  | |- indep (mfor _ _) => apply in_mfor; intros
  | |- indep (match ?x with _ => _ end) => first [apply in_if | destruct x]
  end; cbv beta.
Ltac g := repeat istep; try (match goal with H : relative (STill _) |- _ => destruct H end); auto.
  Lemma o_q_enter : forall q c p, indep (q_enter q c p). Proof. intros. unfold q_enter. g. Qed.
  Lemma o_q_leave : forall q c, indep (q_leave q c). Proof. intros. unfold q_leave. g. Qed.
  Lemma o_q_prio : forall q c, indep (q_prio q c). Proof. intros. unfold q_prio. g. Qed.
  Lemma o_remove : forall c, indep (remove c). Proof. intros. unfold remove. g. Qed.
  Lemma o_reschedule : forall c t p u cap, indep (reschedule c t p u cap). Proof. intros. unfold reschedule, push. g. Qed.
  Lemma o_leave_req : forall c r, indep (leave_req c r).
  Proof. intros. unfold leave_req. g. apply o_q_leave. Qed.
  Lemma o_check_fail : forall c, indep (check_fail c).
  Proof. intros. unfold check_fail. g; auto using o_leave_req, o_q_leave. Qed.
  Lemma o_check_notdata : forall c, indep (check_notdata c). Proof. intros. unfold check_notdata. g. Qed.
  Lemma o_check_notmain : forall c, indep (check_notmain c). Proof. intros. unfold check_notmain. g. Qed.
  Lemma o_activate : forall c d p u pr kr kw cap, indep (activate c None d p u pr kr kw cap).
  Proof. intros. unfold activate. g; auto using o_remove, o_check_fail, o_reschedule. Qed.
  Lemma o_create : forall c d p u sk cap, indep (create c None d p u sk cap).
  Proof. intros. unfold create. g; auto using o_remove, o_check_fail, o_reschedule. Qed.
  Lemma o_hold : forall c sp p u i cap, relative sp -> indep (hold c sp p u i cap).
  Proof. intros. unfold hold. g; auto using o_check_notdata, o_remove, o_check_fail, o_reschedule. Qed.
  Lemma o_passivate : forall c, indep (passivate c).
  Proof. intros. unfold passivate. g; auto using o_check_notdata, o_remove, o_check_fail, o_reschedule. Qed.
  Lemma o_interrupt : forall c, indep (interrupt c).
  Proof. intros. unfold interrupt. g; auto using o_check_notdata, o_remove, o_check_fail, o_reschedule. Qed.
  Lemma o_resume : forall c a p u, indep (resume c a p u).
  Proof. intros. unfold resume. g; auto using o_check_notdata, o_remove, o_check_fail, o_reschedule. Qed.
  Lemma o_standby : forall c, indep (standby c).
  Proof. intros. unfold standby. g; auto using o_check_notdata, o_check_notmain, o_remove, o_check_fail, o_reschedule. Qed.
  Lemma o_set_remaining : forall c v p u, indep (set_remaining c v p u).
  Proof. intros. unfold set_remaining. g; auto using o_remove, o_check_fail, o_reschedule. Qed.
  Lemma o_honor_one : forall c r q, indep (honor_one c r q).
  Proof. intros. unfold honor_one. g; auto using o_q_prio. Qed.
  Lemma o_honor_all_from : forall c rq, indep (honor_all_from c rq).
  Proof. induction rq as [|[r q] t IH]; cbn; g; auto using o_honor_one. Qed.
  Lemma o_honor_any_from : forall c rq, indep (honor_any_from c rq).
  Proof. induction rq as [|[r q] t IH]; cbn; g; auto using o_honor_one. Qed.
  Lemma o_honor_all : forall c, indep (honor_all c).
  Proof. intros. unfold honor_all. g; auto using o_honor_all_from. Qed.
  Lemma o_honor_any : forall c, indep (honor_any c).
  Proof. intros. unfold honor_any. g; auto using o_honor_any_from. Qed.
  Lemma o_claim : forall c r q, indep (claim c r q).
  Proof. intros. unfold claim. g; auto using o_q_prio, o_q_enter. Qed.
  Lemma o_c_try : forall rt c, (forall r, indep (rt r)) -> indep (c_try rt c).
  Proof.
    intros. unfold c_try. g; auto using o_honor_all, o_honor_any, o_claim, o_leave_req, o_remove, o_reschedule.
  Qed.
  Lemma o_rloop : forall ct r an first p1, (forall c, indep (ct c)) -> forall n mx, indep (rloop ct n r an first p1 mx).
  Proof. induction n; intros mx; cbn; destruct mx as [[c p]|]; g. Qed.
  Lemma o_r_try : forall n r, indep (r_try n r).
  Proof. induction n; intros; cbn; g; auto; apply o_rloop; intros; apply o_c_try; auto. Qed.
  Lemma o_release1 : forall n c r q b, indep (release1 n c r q b).
  Proof. intros. unfold release1. g; auto using o_r_try, o_q_leave. Qed.
  Lemma o_release : forall n c a, indep (release n c a).
  Proof. intros. unfold release. g; auto using o_release1. Qed.
  Lemma o_release_claimers : forall f n r mx, indep (release_claimers f n r mx).
  Proof. induction n; intros r mx; cbn [release_claimers]; destruct mx as [[c p]|]; g; auto using o_release. Qed.
  Lemma o_res_release : forall n r q, indep (res_release n r q).
  Proof. intros. unfold res_release. g; auto using o_r_try, o_release_claimers. Qed.
  Lemma o_set_cap : forall n r q, indep (set_cap n r q).
  Proof. intros. unfold set_cap. g; auto using o_r_try. Qed.
  Lemma o_cancel : forall n c, indep (cancel n c).
  Proof. intros. unfold cancel. g; auto using o_remove, o_check_fail, o_release1. Qed.
  Lemma o_fail_time : forall sp, relative sp -> indep (fail_time sp).
  Proof. intros. unfold fail_time. g. Qed.
  Lemma o_request1 : forall n c m a, indep (request1 n c m a).
  Proof. intros. unfold request1. destruct a as [[r q] p]. g; auto using o_q_enter, o_release1, o_activate. Qed.
  Lemma o_request : forall n c a o f p u cap, relative f -> indep (request n c a o f p u cap).
  Proof.
    intros. unfold request.
    g; auto using o_check_notdata, o_check_notmain, o_remove, o_check_fail, o_fail_time, o_reschedule, o_request1, o_c_try, o_r_try.
  Qed.
  Lemma o_c_trywait : forall c, indep (c_trywait c).
  Proof. intros. unfold c_trywait, leave_wait. g; auto using o_q_leave, o_remove, o_reschedule. Qed.
  Lemma o_s_trywait : forall l m, indep (s_trywait l m).
  Proof. induction l; intros m; cbn; g; auto using o_c_trywait. Qed.
  Lemma o_wait1 : forall c a, indep (wait1 c a).
  Proof. intros. unfold wait1. destruct a as [[st f] p]. g; auto using o_q_enter. Qed.
  Lemma o_wait : forall c a al f p u cap, relative f -> indep (wait c a al f p u cap).
  Proof.
    intros. unfold wait.
    g; auto using o_check_notdata, o_check_notmain, o_remove, o_check_fail, o_fail_time, o_reschedule, o_wait1, o_c_trywait.
  Qed.
  Lemma o_wait_for : forall c a al f p u cap, relative f -> indep (wait_for c a al f p u cap).
  Proof.
    intros. unfold wait_for.
    g; auto using o_check_notdata, o_check_notmain, o_remove, o_check_fail, o_fail_time, o_reschedule, o_q_enter, o_c_trywait.
  Qed.
  Lemma o_terminate : forall n c, indep (terminate n c).
  Proof. intros. unfold terminate. g; auto using o_release1. Qed.
  Lemma o_continue : forall n c, indep (continue n c).
  Proof. intros. unfold continue. g; auto using o_r_try. Qed.
  Lemma o_give : forall d c, indep (give d c).
  Proof. intros. unfold give. g; auto using o_remove, o_reschedule. Qed.
  Lemma o_leave_from : forall d, indep (leave_from d).
  Proof. intros. unfold leave_from. g; auto using o_q_leave. Qed.
  Lemma o_leave_to : forall d, indep (leave_to d).
  Proof. intros. unfold leave_to. g; auto using o_q_leave. Qed.

  (** state values *)
  Lemma o_st_set : forall st v, indep (st_set st v).
  Proof. intros. unfold st_set, set_sval, st_trywait. g; auto using o_s_trywait. Qed.
  Lemma o_st_trigger : forall st v a m, indep (st_trigger st v a m).
  Proof. intros. unfold st_trigger, set_sval, st_trywait. g; auto using o_s_trywait. Qed.

  (** stores *)
  Lemma o_set_kmav : forall k v, indep (set_kmav k v).
  Proof. intros. unfold set_kmav. g. Qed.
  Lemma o_item : forall n, (forall k c w, indep (item_enter n k c w)) /\ (forall k c, indep (item_leave n k c)).
  Proof.
    induction n as [|n [IH1 IH2]]; split; intros; cbn;
      g; auto using o_set_kmav, o_leave_from, o_leave_to, o_give, o_remove, o_reschedule.
  Qed.
  Lemma o_item_enter : forall n k c w, indep (item_enter n k c w). Proof. intros. apply o_item. Qed.
  Lemma o_item_leave : forall n k c, indep (item_leave n k c). Proof. intros. apply o_item. Qed.
  Lemma o_find : forall f key ks best lk s y, find_item (s_off y s) f key best ks lk = find_item s f key best ks lk.
  Proof. induction ks as [|k t IH]; intros; cbn [find_item]; auto. change (qs (s_off y s)) with (qs s). destruct key; [apply IH|]. destruct (find f _); auto. Qed.
  Lemma o_from_store : forall n c ks f key rp fl fp u cap, relative fl -> indep (from_store n c ks f key rp fl fp u cap).
  Proof.
    intros. unfold from_store.
    g; auto using o_check_notdata, o_check_notmain, o_remove, o_check_fail, o_fail_time, o_reschedule, o_q_enter, o_item_leave.
    all: apply in_get; intros; apply o_find.
  Qed.
  Lemma o_to_try : forall n c i p ks, indep (to_try n c i p ks).
  Proof. induction ks; cbn; g; auto using o_item_enter, o_remove, o_reschedule. Qed.
  Lemma o_to_store : forall n c ks i rp p fl fp u cap, relative fl -> indep (to_store n c ks i rp p fl fp u cap).
  Proof.
    intros. unfold to_store.
    g; auto using o_check_notdata, o_check_notmain, o_remove, o_check_fail, o_fail_time, o_reschedule, o_q_enter, o_to_try.
  Qed.
  Lemma o_rescan_items : forall n k d l, indep (rescan_items n k d l).
  Proof. induction l; cbn; g; auto using o_leave_from, o_item_leave, o_give. Qed.
  Lemma o_rescan : forall n k, indep (rescan n k).
  Proof. intros. unfold rescan. g; auto using o_rescan_items. Qed.
  Lemma o_set_filter : forall n c f, indep (set_filter n c f).
  Proof. intros. unfold set_filter. g; auto using o_rescan. Qed.
  Lemma o_rescan_to_loop : forall n k l, indep (rescan_to_loop n k l).
  Proof. induction l; cbn; g; auto using o_leave_to, o_item_enter, o_remove, o_reschedule. Qed.
  Lemma o_st_set_cap : forall n k cap, indep (st_set_cap n k cap).
  Proof. intros. unfold st_set_cap. g; auto using o_set_kmav, o_rescan_to_loop. Qed.


  Lemma o_run : forall sp p u cap, relative sp -> indep (run sp p u cap).
  Proof. intros. unfold run. g; auto using o_reschedule. Qed.
  Lemma o_step : forall n, indep (step n).
  Proof. intros. unfold step, step_event. g; auto using o_check_fail, o_continue. Qed.
(** the calls that are given an absolute time, or set the offset *)
Definition absolute (o : op) : Prop :=
  match o with
  | OCreate _ (Some _) _ _ _ _ _ | OActivate _ (Some _) _ _ _ _ _ _ _ => True
  | OHold _ sp _ _ _ _ | ORequest _ _ _ sp _ _ _ | OWait _ _ _ sp _ _ _ | OWaitFor _ _ _ sp _ _ _
  | OFromStore _ _ _ _ _ sp _ _ _ | OToStore _ _ _ _ _ sp _ _ _ | ORun sp _ _ _ => ~ relative sp
  | OResetNow _ => True
  | _ => False
  end.
Lemma o_exec : forall n o, ~ absolute o -> indep (exec n o).
Proof.
  assert (R : forall sp, ~ ~ relative sp -> relative sp) by (destruct sp; cbn; tauto).
  intros n o N. destruct o; cbn [exec absolute] in *; try (apply R in N);
    try (destruct at_ as [a|]; [exfalso; apply N; exact Logic.I|]); try (exfalso; apply N; exact Logic.I);
    auto using o_create, o_activate, o_hold, o_passivate, o_interrupt, o_resume, o_cancel, o_standby,
        o_set_remaining, o_request, o_release, o_res_release, o_set_cap, o_wait, o_wait_for, o_st_set,
        o_st_trigger, o_from_store, o_to_store, o_item_enter, o_item_leave, o_st_set_cap, o_rescan,
        o_set_filter, o_run, o_step; g; auto using o_terminate.
Qed.
