(** Every call as a series of elementary changes of requests, claims and capacities. *)
From Coq Require Import QArith Lqa List Bool Arith ZArith Lia.
From Verif Require Import Base Kernel Wp KernelE KernelL KernelX KernelT KernelU KernelR KernelQ KernelA.
Import ListNotations.
Open Scope Q_scope.
Local Arguments keys : simpl never.

(** ** Changes that do not concern claims; requests can only be withdrawn *)
Definition plain (x : resource) : resource := w_trying false (w_minq PInf x).
Record quiet (x : option nat) (s s' : env) : Prop := {
  qt_rsc : forall r, plain (rsc s' r) = plain (rsc s r);
  qt_clm : forall r, qs s' (QClaim r) = qs s (QClaim r);
  qt_req : forall r, exists f, qs s' (QReq r) = filter f (qs s (QReq r));
  qt_cl : forall c, c_claims (comps s' c) = c_claims (comps s c);
  qt_rq : forall c, c_requests (comps s' c) = c_requests (comps s c) \/ c_requests (comps s' c) = [];
  qt_one : forall c, x <> Some c -> c_oneof (comps s' c) = c_oneof (comps s c) }.
Arguments qt_rsc {x} s s'. Arguments qt_clm {x} s s'. Arguments qt_req {x} s s'. Arguments qt_cl {x} s s'. Arguments qt_rq {x} s s'. Arguments qt_one {x} s s'.
Lemma filter_true : forall A (l : list A), filter (fun _ => true) l = l.
Proof. induction l; cbn; congruence. Qed.
Lemma filter_and : forall A (f g : A -> bool) l, filter f (filter g l) = filter (fun x => g x && f x) l.
Proof. induction l as [|x t IH]; cbn; auto. destruct (g x); cbn; [destruct (f x); cbn; congruence | auto]. Qed.
Lemma quiet_po : preorder (quiet None).
Proof.
  constructor.
  - intros s. constructor; auto. intros r. exists (fun _ => true). rewrite filter_true. auto.
  - intros a b c A B. constructor.
    + intros r. rewrite (qt_rsc _ _ B), (qt_rsc _ _ A). auto.
    + intros r. rewrite (qt_clm _ _ B), (qt_clm _ _ A). auto.
    + intros r. destruct (qt_req _ _ B r) as (g & ->), (qt_req _ _ A r) as (f & ->). rewrite filter_and. eauto.
    + intros r. rewrite (qt_cl _ _ B), (qt_cl _ _ A). auto.
    + intros r. destruct (qt_rq _ _ B r) as [-> | ->]; [apply (qt_rq _ _ A)|auto].
    + intros d N. rewrite (qt_one _ _ B), (qt_one _ _ A) by auto. auto.
Qed.
Lemma quiet_same : forall s s', rsc s' = rsc s -> qs s' = qs s -> comps s' = comps s -> quiet None s s'.
Proof. intros s s' E1 E2 E3. constructor; rewrite ?E1, ?E2, ?E3; auto. intros r. exists (fun _ => true). rewrite filter_true. auto. Qed.
Lemma quiet_comp : forall c f s, c_claims (f (comps s c)) = c_claims (comps s c) ->
  (c_requests (f (comps s c)) = c_requests (comps s c) \/ c_requests (f (comps s c)) = []) ->
  c_oneof (f (comps s c)) = c_oneof (comps s c) -> quiet None s (m_comp c f s).
Proof.
  intros c f s A B C. constructor; auto.
  - intros r. exists (fun _ => true). rewrite filter_true. auto.
  - intros d. destruct (Nat.eq_dec d c) as [->|]; [rewrite comps_same | rewrite comps_diff]; auto.
  - intros d. destruct (Nat.eq_dec d c) as [->|]; [rewrite comps_same | rewrite comps_diff]; auto.
  - intros d _. destruct (Nat.eq_dec d c) as [->|]; [rewrite comps_same | rewrite comps_diff]; auto.
Qed.
Lemma quiet_one : forall c b s, quiet (Some c) s (m_comp c (w_oneof b) s).
Proof.
  intros c b s. constructor; auto.
  - intros r. exists (fun _ => true). rewrite filter_true. auto.
  - intros d. destruct (Nat.eq_dec d c) as [->|]; [rewrite comps_same | rewrite comps_diff]; auto.
  - intros d. destruct (Nat.eq_dec d c) as [->|]; [rewrite comps_same | rewrite comps_diff]; auto.
  - intros d N. rewrite comps_diff by congruence. auto.
Qed.
Lemma quiet_rsc : forall r f s, plain (f (rsc s r)) = plain (rsc s r) -> quiet None s (m_rsc r f s).
Proof.
  intros r f s A. constructor; auto.
  - intros x. rewrite rsc_m_rsc. destruct (Nat.eqb_spec x r) as [->|]; auto.
  - intros x. exists (fun _ => true). rewrite filter_true. auto.
Qed.
Lemma adel_filter : forall A k (l : list (nat * A)), adel k l = filter (fun p => negb (Nat.eqb k (fst p))) l.
Proof. induction l as [|(x, y) t IH]; cbn; auto. Qed.
Lemma quiet_leave : forall q c s, (forall r, q <> QClaim r) -> quiet None s (m_q q (adel c) s).
Proof.
  intros q c s H. constructor; auto.
  - intros r. rewrite qs_m_q. destruct (qeqb_spec (QClaim r) q); auto. subst. exfalso. eapply H; eauto.
  - intros r. rewrite qs_m_q. destruct (qeqb_spec (QReq r) q) as [<-|]; [rewrite adel_filter; eauto|].
    exists (fun _ => true). rewrite filter_true. auto.
Qed.
Lemma quiet_q : forall q f s, (forall r, q <> QClaim r) -> (forall r, q <> QReq r) -> quiet None s (m_q q f s).
Proof.
  intros q f s H K. constructor; auto.
  - intros r. rewrite qs_m_q. destruct (qeqb_spec (QClaim r) q); auto. subst. exfalso. eapply H; eauto.
  - intros r. rewrite qs_m_q. destruct (qeqb_spec (QReq r) q); [subst; exfalso; eapply K; eauto|].
    exists (fun _ => true). rewrite filter_true. auto.
Qed.
Ltac qtf := first [ apply quiet_same; reflexivity | apply quiet_comp; [reflexivity | auto; fail | reflexivity] | apply quiet_rsc; reflexivity
                  | apply quiet_leave; intros; discriminate | apply quiet_q; intros; discriminate ].
Ltac fqt := fgo quiet_po; try (solve [qtf]); auto with qt.
Lemma qt_q_leave : forall q c, (forall r, q <> QClaim r) -> frames (quiet None) (q_leave q c).
Proof. intros. unfold q_leave. fgo quiet_po. apply quiet_leave; auto. Qed.
Lemma qt_q_enter : forall q c p, (forall r, q <> QClaim r) -> (forall r, q <> QReq r) -> frames (quiet None) (q_enter q c p).
Proof. intros. unfold q_enter. fgo quiet_po. apply quiet_q; auto. Qed.
#[export] Hint Extern 2 (frames (quiet None) (q_leave _ _)) => (apply qt_q_leave; intros; discriminate) : qt.
#[export] Hint Extern 2 (frames (quiet None) (q_enter _ _ _)) => (apply qt_q_enter; intros; discriminate) : qt.
Lemma qt_q_prio : forall q c, frames (quiet None) (q_prio q c). Proof. intros. unfold q_prio. fqt. Qed.
Lemma qt_remove : forall c, frames (quiet None) (remove c). Proof. intros. unfold remove. fqt. Qed.
Lemma qt_reschedule : forall c t p u cap, frames (quiet None) (reschedule c t p u cap). Proof. intros. unfold reschedule, push. fqt. Qed.
Lemma qt_leave_req : forall c r, frames (quiet None) (leave_req c r). Proof. intros. unfold leave_req. fqt. Qed.
Lemma qt_check_notdata : forall c, frames (quiet None) (check_notdata c). Proof. intros. unfold check_notdata. fqt. Qed.
Lemma qt_check_notmain : forall c, frames (quiet None) (check_notmain c). Proof. intros. unfold check_notmain. fqt. Qed.
Lemma qt_fail_time : forall sp, frames (quiet None) (fail_time sp). Proof. intros. unfold fail_time. fqt. Qed.
#[export] Hint Resolve qt_q_prio qt_remove qt_reschedule qt_leave_req qt_check_notdata qt_check_notmain qt_fail_time : qt.
Lemma qt_check_fail : forall c, frames (quiet None) (check_fail c). Proof. intros. unfold check_fail. fqt. Qed.
#[export] Hint Resolve qt_check_fail : qt.
Lemma qt_activate : forall c a d p u pr kr kw cap, frames (quiet None) (activate c a d p u pr kr kw cap). Proof. intros. unfold activate. fqt. Qed.
Lemma qt_create : forall c a d p u sk cap, frames (quiet None) (create c a d p u sk cap). Proof. intros. unfold create. fqt. Qed.
Lemma qt_hold : forall c sp p u i cap, frames (quiet None) (hold c sp p u i cap). Proof. intros. unfold hold. fqt. Qed.
Lemma qt_passivate : forall c, frames (quiet None) (passivate c). Proof. intros. unfold passivate. fqt. Qed.
Lemma qt_interrupt : forall c, frames (quiet None) (interrupt c). Proof. intros. unfold interrupt. fqt. Qed.
Lemma qt_resume : forall c a p u, frames (quiet None) (resume c a p u). Proof. intros. unfold resume. fqt. Qed.
Lemma qt_standby : forall c, frames (quiet None) (standby c). Proof. intros. unfold standby. fqt. Qed.
Lemma qt_set_remaining : forall c v p u, frames (quiet None) (set_remaining c v p u). Proof. intros. unfold set_remaining. fqt. Qed.
Lemma qt_leave_wait : forall c t, frames (quiet None) (leave_wait c t). Proof. intros. unfold leave_wait. fqt. Qed.
#[export] Hint Resolve qt_activate qt_leave_wait : qt.
Lemma qt_c_trywait : forall c, frames (quiet None) (c_trywait c). Proof. intros. unfold c_trywait. fqt. Qed.
#[export] Hint Resolve qt_c_trywait : qt.
Lemma qt_s_trywait : forall l m, frames (quiet None) (s_trywait l m). Proof. induction l; intros m; cbn; fqt. Qed.
#[export] Hint Resolve qt_s_trywait : qt.
Lemma qt_st_set : forall st v, frames (quiet None) (st_set st v). Proof. intros. unfold st_set, set_sval, st_trywait. fqt. Qed.
Lemma qt_st_trigger : forall st v a m, frames (quiet None) (st_trigger st v a m). Proof. intros. unfold st_trigger, set_sval, st_trywait. fqt. Qed.
Lemma qt_wait1 : forall c a, frames (quiet None) (wait1 c a). Proof. intros c ((st, f), p). unfold wait1. fqt. Qed.
#[export] Hint Resolve qt_wait1 : qt.
Lemma qt_wait : forall c a al f p u cap, frames (quiet None) (wait c a al f p u cap). Proof. intros. unfold wait. fqt. Qed.
Lemma qt_wait_for : forall c cd sts f p u cap, frames (quiet None) (wait_for c cd sts f p u cap). Proof. intros. unfold wait_for. fqt. Qed.
Lemma qt_leave_from : forall d, frames (quiet None) (leave_from d). Proof. intros. unfold leave_from. fqt. Qed.
Lemma qt_leave_to : forall d, frames (quiet None) (leave_to d). Proof. intros. unfold leave_to. fqt. Qed.
Lemma qt_give : forall d c, frames (quiet None) (give d c). Proof. intros. unfold give. fqt. Qed.
#[export] Hint Resolve qt_leave_from qt_leave_to qt_give : qt.
Lemma qt_item : forall n, (forall k c w, frames (quiet None) (item_enter n k c w)) /\ (forall k c, frames (quiet None) (item_leave n k c)).
Proof. induction n as [|n (IH1 & IH2)]; split; intros; cbn [item_enter item_leave]; unfold set_kmav; fqt. Qed.
Lemma qt_item_enter : forall n k c w, frames (quiet None) (item_enter n k c w). Proof. intros. apply qt_item. Qed.
Lemma qt_item_leave : forall n k c, frames (quiet None) (item_leave n k c). Proof. intros. apply qt_item. Qed.
#[export] Hint Resolve qt_item_enter qt_item_leave : qt.
Lemma qt_from_store : forall n c ks f key rp fl fp u cap, frames (quiet None) (from_store n c ks f key rp fl fp u cap).
Proof. intros. unfold from_store. fqt. Qed.
Lemma qt_to_try : forall n c i p ks, frames (quiet None) (to_try n c i p ks). Proof. induction ks; cbn; fqt. Qed.
#[export] Hint Resolve qt_to_try : qt.
Lemma qt_to_store : forall n c ks i rp p fl fp u cap, frames (quiet None) (to_store n c ks i rp p fl fp u cap).
Proof. intros. unfold to_store. fqt. Qed.
Lemma qt_rescan_items : forall n k d l, frames (quiet None) (rescan_items n k d l). Proof. induction l; cbn; fqt. Qed.
#[export] Hint Resolve qt_rescan_items : qt.
Lemma qt_rescan : forall n k, frames (quiet None) (rescan n k). Proof. intros. unfold rescan. fqt. Qed.
#[export] Hint Resolve qt_rescan : qt.
Lemma qt_set_filter : forall n c f, frames (quiet None) (set_filter n c f). Proof. intros. unfold set_filter. fqt. Qed.
Lemma qt_rescan_to_loop : forall n k ds, frames (quiet None) (rescan_to_loop n k ds). Proof. induction ds; cbn [rescan_to_loop]; fqt. Qed.
#[export] Hint Resolve qt_rescan_to_loop : qt.
Lemma qt_st_set_cap : forall n k cap, frames (quiet None) (st_set_cap n k cap). Proof. intros. unfold st_set_cap, set_kmav. fqt. Qed.
Lemma qt_run : forall sp p u cap, frames (quiet None) (run sp p u cap). Proof. intros. unfold run. fqt. Qed.

(** ** The elementary changes *)
Definition granted (s : env) (c : nat) (s' : env) : Prop :=
  exists s1, took s c (grant s c) (c_requests (comps s c)) s1 /\ s' = m_comp c (w_requests []) s1.
(** c, which claims v, gives back q0 of r *)
Definition full (v q0 : Q) : bool := Qltb (v - q0) eps.
Record gave (s : env) (c r : nat) (v q0 : Q) (s' : env) : Prop := {
  gv_env : s' = s_comps (comps s') (s_rsc (rsc s') (s_qs (qs s') s));
  gv_rsc : forall x, rsc s' x = if Nat.eqb x r then
     r_tally (w_claimed (if full v q0 && negb (nonnil (adel c (qs s (QClaim r)))) then 0 else r_claimed (rsc s r) - q0) (rsc s r))
     else rsc s x;
  gv_q : forall x, qs s' x = if qeqb x (QClaim r) then (if full v q0 then adel c (qs s (QClaim r)) else qs s (QClaim r)) else qs s x;
  gv_oth : forall d, d <> c -> comps s' d = comps s d;
  gv_self : exists cl, comps s' c = w_claims cl (comps s c) /\
     forall x, alookup x cl = if Nat.eqb x r then (if full v q0 then None else Some (v - q0)) else alookup x (c_claims (comps s c)) }.
Definition asked (s : env) (c r : nat) (q : Q) : env :=
  m_comp c (fun x => w_requests (aset r (match alookup r (c_requests x) with Some v => v + q | None => q end) (c_requests x)) x) s.

(** a quiet change ([Some c]: oneof of c is set); c asks q of r; c is honored; c gives back q0 of its v of r ([b]: bumped); ... *)
Inductive lab := LQuiet (x : option nat) | LAsk (c r : nat) (q : Q) | LGrant (c : nat) | LFree (c r : nat) (v q0 : Q) (b : bool)
              | LAnon (r : nat) (q : option Q) | LCap (r : nat) (cap : xq).
Definition anon_after (q : option Q) (x : resource) : resource :=
  let y := r_claimed x - match q with None => r_claimed x | Some v => v end in
  r_tally (w_claimed (if Qltb y eps then 0 else y) x).
Definition cap_after (cap : xq) (x : resource) : resource :=
  mkR cap (r_claimed x) (r_anon x) (r_preempt x) (r_hfirst x) (r_hprio x) (r_minq x) (r_trying x) cap (r_mclaimed x)
      (avail (w_cap cap x)) (occ cap (r_claimed x)).
Definition rset (s : env) (r : nat) (x : resource) (s' : env) : Prop :=
  s' = s_rsc (rsc s') s /\ forall r', rsc s' r' = if Nat.eqb r' r then x else rsc s r'.
Definition lstep (l : lab) (s s' : env) : Prop :=
  match l with
  | LQuiet x => quiet x s s'
  | LAsk c r q => (Qltb q 0 = true -> r_anon (rsc s r) = true) /\
      ((inq c (qs s (QReq r)) = true /\ s' = asked s c r q) \/
       (inq c (qs s (QReq r)) = false /\ exists p, s' = m_q (QReq r) (ins_sorted c p) (asked s c r q)))
  | LGrant c => c_status (comps s c) <> Interrupted /\ grant s c <> [] /\ granted s c s'
  | LFree c r v q0 b => alookup r (c_claims (comps s c)) = Some v /\ q0 <= v /\ (b = true -> r_preempt (rsc s r) = true) /\ gave s c r v q0 s'
  | LAnon r q => r_anon (rsc s r) = true /\ rset s r (anon_after q (rsc s r)) s'
  | LCap r cap => rset s r (cap_after cap (rsc s r)) s'
  end.
Inductive rpath (P : lab -> Prop) : env -> env -> Prop :=
| rp_nil : forall s, rpath P s s
| rp_cons : forall l s s1 s2, P l -> GI none s -> lstep l s s1 -> GI none s1 -> rpath P s1 s2 -> rpath P s s2.
Lemma rpath_trans : forall P a b c, rpath P a b -> rpath P b c -> rpath P a c.
Proof. intros P a b c H. induction H; auto. intros K. eapply rp_cons; eauto. Qed.
Lemma rpath_one : forall (P : lab -> Prop) l s s', P l -> GI none s -> lstep l s s' -> GI none s' -> rpath P s s'.
Proof. intros. eapply rp_cons; eauto. apply rp_nil. Qed.
Lemma rpath_weak : forall (P P' : lab -> Prop) s s', (forall l, P l -> P' l) -> rpath P s s' -> rpath P' s s'.
Proof. intros P P' s s' H R. induction R; [apply rp_nil | eapply rp_cons; eauto]. Qed.

Definition RP (P : lab -> Prop) (s s' : env) : Prop := GI none s -> GI none s' /\ rpath P s s'.
Lemma RP_po : forall P, preorder (RP P).
Proof.
  intros P. constructor.
  - intros s G. split; auto. apply rp_nil.
  - intros a b c A B G. destruct (A G) as (G1 & P1). destruct (B G1) as (G2 & P2). split; auto. eapply rpath_trans; eauto.
Qed.
Lemma RP_quiet : forall A (P : lab -> Prop) (m : M A), P (LQuiet None) -> frames (quiet None) m -> frames (RG none) m -> frames (RP P) m.
Proof. intros A P m H1 H2 H3 s G. split; [apply H3; auto|]. eapply rpath_one; eauto; [apply H2 | apply H3; auto]. Qed.
Lemma RP_intro : forall A P (m : M A),
  (forall s, GI none s -> wp m (fun _ s' => GI none s' /\ rpath P s s') (fun _ s' => GI none s' /\ rpath P s s') s) -> frames (RP P) m.
Proof. intros A P m H s G. apply wp_fst. auto. Qed.
Lemma w_rp : forall A (m : M A) P (Q : A -> env -> Prop) s0 s, frames (RP P) m -> GI none s -> rpath P s0 s ->
  (forall a s', GI none s' -> rpath P s0 s' -> Q a s') -> wp m Q (fun _ s' => GI none s' /\ rpath P s0 s') s.
Proof.
  intros A m P Q s0 s F G R K. eapply wp_conseq; [apply (frames_wp _ _ m s F) | |]; cbv beta.
  - intros a s' B. destruct (B G). apply K; auto. eapply rpath_trans; eauto.
  - intros e s' B. destruct (B G). split; auto. eapply rpath_trans; eauto.
Qed.
Lemma wp_of_eq : forall A (m m' : M A) (Q : A -> env -> Prop) X s, m s = m' s -> wp m' Q X s -> wp m Q X s.
Proof. intros A m m' Q X s E H. unfold wp in *. rewrite E. auto. Qed.
Lemma wp_eq : forall A (m : M A) (Q : A -> env -> Prop) X s a, m s = (s, Ok a) -> Q a s -> wp m Q X s.
Proof. intros A m Q X s a E H. unfold wp. rewrite E. auto. Qed.

Lemma GI_keys : forall s c r, GI none s -> (mem s (QClaim r) c <-> alookup r (c_claims (comps s c)) <> None).
Proof.
  intros s c r G. rewrite (gi_mem _ _ G (QClaim r) c eq_refl). cbn. split.
  - intros (I & _) E. apply alookup_None in E. auto.
  - intros E. split; [|intros []]. destruct (alookup r (c_claims (comps s c))) eqn:A; [|congruence]. eapply alookup_Some_key; eauto.
Qed.
Lemma in_newclaim : forall s c r q l d, mem s (QReq r) c -> (In d (map fst (newclaim c r q s l)) <-> d = c \/ In d (map fst l)).
Proof.
  intros s c r q l d M. unfold newclaim. destruct (inq c l) eqn:I.
  - apply inq_iff in I. split; [auto|]. intros [->|]; auto.
  - destruct (alookup_ex _ c (qs s (QReq r)) M) as (p & P). unfold qprio. rewrite P. rewrite in_ins_sorted. tauto.
Qed.
Lemma nd_newclaim : forall s c r q l, NoDup (map fst l) -> NoDup (map fst (newclaim c r q s l)).
Proof.
  intros s c r q l N. unfold newclaim. destruct (inq c l) eqn:I; auto. apply inq_false in I.
  destruct (qprio c (qs s (QReq r))); auto. apply nd_ins_sorted; auto.
Qed.
Lemma granted_GI : forall s c s', GI none s -> granted s c s' -> GI none s'.
Proof.
  intros s c s' G (s1 & T & ->). pose proof (gi_ks _ _ G c) as KS.
  destruct (tk_self _ _ _ _ _ T) as (cl & E & ND & L). set (rq := c_requests (comps s c)) in *.
  assert (PM : forall r q, alookup r rq = Some q -> mem s (QReq r) c).
  { intros r q I. apply GI_mem_req; auto. eapply alookup_Some_key; eauto. }
  assert (SELF : comps (m_comp c (w_requests []) s1) c = w_requests [] (w_claims cl (comps s c))) by (rewrite comps_same, E; auto).
  assert (OTH : forall d, d <> c -> comps (m_comp c (w_requests []) s1) d = comps s d).
  { intros d D. rewrite comps_diff by auto. apply (tk_oth _ _ _ _ _ T); auto. }
  constructor.
  - intros q d Q. change (mem (m_comp c (w_requests []) s1) q d) with (mem s1 q d).
    destruct (Nat.eq_dec d c) as [->|D].
    + rewrite SELF. destruct q; try discriminate.
      * unfold mem. rewrite (tk_req _ _ _ _ _ T). cbn. split; [|tauto]. intros I. exfalso.
        destruct (memb r (keys rq)) eqn:B.
        -- change (In c (keys (adel c (qs s (QReq r))))) in I. apply keys_adel_in in I. tauto.
        -- apply (gi_mem _ _ G (QReq r) c eq_refl) in I. destruct I as (I & _). cbn in I. apply memb_false_iff in B. auto.
      * unfold mem. rewrite (tk_clm _ _ _ _ _ T). cbn. unfold none. split.
        -- intros I. split; [|tauto]. specialize (L r). destruct (alookup r cl) eqn:AC; [eapply alookup_Some_key; eauto|]. exfalso.
           destruct (alookup r rq) eqn:AR; [destruct (memb r (grant s c) && negb (r_anon (rsc s r)))|]; try discriminate;
             symmetry in L; apply (proj1 (GI_keys s c r G)) in I; auto.
        -- intros (I & _). apply alookup_ex in I. destruct I as (v & V). rewrite L in V.
           destruct (alookup r rq) eqn:AR; [destruct (memb r (grant s c) && negb (r_anon (rsc s r)))|].
           ++ rewrite in_newclaim; eauto.
           ++ apply (GI_keys s c r G). congruence.
           ++ apply (GI_keys s c r G). congruence.
      * unfold mem. rewrite (tk_q _ _ _ _ _ T); [|intros; split; discriminate]. apply (gi_mem _ _ G (QWait s0) c eq_refl).
      * unfold mem. rewrite (tk_q _ _ _ _ _ T); [|intros; split; discriminate]. apply (gi_mem _ _ G (QFrom k) c eq_refl).
      * unfold mem. rewrite (tk_q _ _ _ _ _ T); [|intros; split; discriminate]. apply (gi_mem _ _ G (QTo k) c eq_refl).
    + rewrite OTH by auto. rewrite <- (gi_mem _ _ G q d Q). unfold mem. destruct q; try discriminate.
      * rewrite (tk_req _ _ _ _ _ T). destruct (memb r (keys rq)); [|tauto].
        change (In d (keys (adel c (qs s (QReq r)))) <-> In d (keys (qs s (QReq r)))). rewrite keys_adel_in. intuition.
      * rewrite (tk_clm _ _ _ _ _ T). destruct (alookup r rq) eqn:AR; [|tauto]. destruct (memb r (grant s c) && negb (r_anon (rsc s r))); [|tauto].
        rewrite in_newclaim by eauto. intuition.
      * rewrite (tk_q _ _ _ _ _ T); [tauto|intros; split; discriminate].
      * rewrite (tk_q _ _ _ _ _ T); [tauto|intros; split; discriminate].
      * rewrite (tk_q _ _ _ _ _ T); [tauto|intros; split; discriminate].
  - intros q. change (qs (m_comp c (w_requests []) s1) q) with (qs s1 q). pose proof (gi_nd _ _ G q) as N.
    destruct q; try (rewrite (tk_q _ _ _ _ _ T); [exact N | intros; split; discriminate]).
    + rewrite (tk_req _ _ _ _ _ T). destruct (memb r (keys rq)); auto. apply nd_adel; auto.
    + rewrite (tk_clm _ _ _ _ _ T). destruct (alookup r rq); auto. destruct (memb r (grant s c) && negb (r_anon (rsc s r))); auto. apply nd_newclaim; auto.
  - intros d. destruct (Nat.eq_dec d c) as [->|D]; [|rewrite OTH by auto; apply (gi_ks _ _ G)].
    rewrite SELF. unfold okks in *. cbn. intuition. constructor.
Qed.

Lemma RP_comp : forall (P : lab -> Prop) c f s, P (LQuiet None) -> lists (f (comps s c)) = lists (comps s c) -> c_claims (f (comps s c)) = c_claims (comps s c) ->
  c_requests (f (comps s c)) = c_requests (comps s c) -> c_oneof (f (comps s c)) = c_oneof (comps s c) -> RP P s (m_comp c f s).
Proof.
  intros P c f s H A B C D G. assert (G1 : GI none (m_comp c f s)) by (apply GI_comp; auto). split; auto.
  eapply rpath_one; eauto. apply quiet_comp; auto.
Qed.
Lemma RP_same : forall (P : lab -> Prop) s s', P (LQuiet None) -> rsc s' = rsc s -> qs s' = qs s -> comps s' = comps s -> RP P s s'.
Proof.
  intros P s s' H A B C G. assert (G1 : GI none s') by (eapply GI_same; eauto). split; auto.
  eapply rpath_one; eauto. apply quiet_same; auto.
Qed.
Lemma RP_trying : forall (P : lab -> Prop) r f s, P (LQuiet None) -> plain (f (rsc s r)) = plain (rsc s r) -> RP P s (m_rsc r f s).
Proof.
  intros P r f s H A G. assert (G1 : GI none (m_rsc r f s)) by (eapply GI_same; [| |exact G]; reflexivity). split; auto.
  eapply rpath_one; eauto. apply quiet_rsc; auto.
Qed.
Ltac rpf := first [ apply RP_same; [assumption | reflexivity | reflexivity | reflexivity]
                  | apply RP_comp; [assumption | reflexivity | reflexivity | reflexivity | reflexivity]
                  | apply RP_trying; [assumption | reflexivity] ].
Ltac frp P := let po := constr:(RP_po P) in fgo po; try (solve [rpf]).

Section Paths.
  Context (P : lab -> Prop) (HQ : P (LQuiet None)) (HG : forall c, P (LGrant c)).
  Lemma rp_remove : forall c, frames (RP P) (remove c). Proof. intros. apply RP_quiet; auto with qt gq. Qed.
  Lemma rp_reschedule : forall c t p u cap, frames (RP P) (reschedule c t p u cap). Proof. intros. apply RP_quiet; auto with qt gq. Qed.
  Lemma rp_check_fail : forall c, frames (RP P) (check_fail c). Proof. intros. apply RP_quiet; auto with qt gq. Qed.
  Hint Resolve rp_remove rp_reschedule rp_check_fail : rp.
  Lemma rp_c_try : forall rt c, (forall r, frames (RP P) (rt r)) -> frames (RP P) (c_try rt c).
  Proof.
    intros rt c HR. apply RP_intro. intros s G. unfold c_try.
    assert (Z : GI none s /\ rpath P s s) by (split; [auto | apply rp_nil]).
    apply wp_bind, wp_stat. apply wp_if; intros B; [apply wp_ret; auto|]. apply steqb_false_iff in B.
    apply wp_bind, wp_get, wp_bind. eapply wp_eq; [apply grant_eq; auto|].
    destruct (grant s c) as [|r0 rh0] eqn:GR; [apply wp_ret; auto|]. rewrite <- GR.
    apply wp_bind, wp_get, wp_bind, wp_get, wp_bind.
    eapply wp_conseq; [apply took_all; auto | cbv beta | intros ? ? []]. intros _ s1 T. apply wp_bind, wp_setc.
    assert (GG : granted s c (m_comp c (w_requests []) s1)) by (exists s1; auto).
    pose proof (granted_GI _ _ _ G GG) as G2.
    assert (R2 : rpath P s (m_comp c (w_requests []) s1)).
    { eapply rpath_one with (l := LGrant c); auto. split; [auto|]. split; [congruence | auto]. }
    eapply w_rp with (P := P); auto. frp P; auto with rp.
  Qed.
  Lemma rp_rloop : forall ct n r an first p1 mx, (forall c, frames (RP P) (ct c)) -> frames (RP P) (rloop ct n r an first p1 mx).
  Proof. intros ct. induction n as [|n IH]; intros; cbn [rloop]; destruct mx as [[c p]|]; frp P; auto. Qed.
  Lemma rp_r_try : forall n r, frames (RP P) (r_try n r).
  Proof. induction n; intros; cbn [r_try]; frp P; auto; apply rp_rloop; intros; apply rp_c_try; auto. Qed.
  Hint Resolve rp_r_try : rp.

  Lemma w_gave : forall c r v q0 s, GI none s -> alookup r (c_claims (comps s c)) = Some v ->
    wp (setr r (fun x => w_claimed (r_claimed x - q0) x) ;;;
        setc c (fun x => w_claims (aset r (v - q0) (c_claims x)) x) ;;;
        when (Qltb (v - q0) eps)
         (q_leave (QClaim r) c ;;;
          l <- get (fun s => qs s (QClaim r)) ;;
          when (negb (nonnil l)) (setr r (w_claimed 0)) ;;;
          setc c (fun x => w_claims (adel r (c_claims x)) x)) ;;;
        setr r r_tally)
       (fun _ s' => gave s c r v q0 s') (fun _ _ => False) s.
  Proof.
    intros c r v q0 s G A. apply wp_bind, wp_setr, wp_bind, wp_setc, wp_bind.
    assert (M : mem s (QClaim r) c) by (apply GI_keys; [auto | congruence]).
    assert (RR : forall x y z, r_tally (w_claimed x (w_claimed y z)) = r_tally (w_claimed x z)) by (intros x y []; reflexivity).
    apply wp_when; intros B.
    - unfold q_leave. apply wp_bind, wp_bind, wp_get.
      match goal with |- wp _ _ _ ?z => set (s1 := z) end. change (qs s1 (QClaim r)) with (qs s (QClaim r)).
      replace (inq c (qs s (QClaim r))) with true by (symmetry; apply inq_iff; exact M). apply wp_put, wp_bind, wp_get, wp_bind.
      set (s2 := m_q (QClaim r) (adel c) s1).
      assert (Q2 : forall x, qs s2 x = if qeqb x (QClaim r) then adel c (qs s (QClaim r)) else qs s x).
      { intros x. unfold s2. rewrite qs_m_q. reflexivity. }
      rewrite Q2. destruct (qeqb_spec (QClaim r) (QClaim r)) as [_|]; [|contradiction].
      assert (FIN : forall s3, (s3 = if nonnil (adel c (qs s (QClaim r))) then s2 else m_rsc r (w_claimed 0) s2) ->
        gave s c r v q0 (m_rsc r r_tally (m_comp c (fun x => w_claims (adel r (c_claims x)) x) s3))).
      { intros s3 E3. assert (C3 : comps s3 = comps s1) by (rewrite E3; destruct (nonnil _); reflexivity).
        assert (QS3 : qs s3 = qs s2) by (rewrite E3; destruct (nonnil _); reflexivity).
        constructor.
        - rewrite E3. destruct (nonnil _), s; reflexivity.
        - intros x. rewrite rsc_m_rsc. unfold full. rewrite B. cbn [andb]. rewrite E3.
          destruct (nonnil (adel c (qs s (QClaim r)))); cbn [negb].
          + change (rsc (m_comp c (fun x => w_claims (adel r (c_claims x)) x) s2)) with (rsc s2). change (rsc s2) with (rsc s1).
            unfold s1. change (rsc (m_comp ?a ?b ?z)) with (rsc z). rewrite !rsc_m_rsc, Nat.eqb_refl. destruct (Nat.eqb x r); auto.
          + change (rsc (m_comp c (fun x => w_claims (adel r (c_claims x)) x) (m_rsc r (w_claimed 0) s2))) with (rsc (m_rsc r (w_claimed 0) s1)).
            unfold s1. rewrite !rsc_m_rsc. change (rsc (m_comp ?a ?b ?z)) with (rsc z). rewrite !rsc_m_rsc, Nat.eqb_refl. destruct (Nat.eqb x r); auto.
        - intros x. change (qs (m_rsc r r_tally (m_comp c (fun x => w_claims (adel r (c_claims x)) x) s3)) x) with (qs s3 x).
          rewrite QS3, Q2. unfold full. rewrite B. auto.
        - intros d D. change (comps (m_rsc r r_tally ?z) d) with (comps z d). rewrite comps_diff by auto. rewrite C3. unfold s1. rewrite comps_diff by auto. reflexivity.
        - eexists. split.
          + change (comps (m_rsc r r_tally ?z) c) with (comps z c). rewrite comps_same. rewrite C3. unfold s1. rewrite comps_same. reflexivity.
          + intros x. cbn [c_claims w_claims]. unfold full. rewrite B. destruct (Nat.eqb_spec x r) as [->|D].
            * apply alookup_None. intros I. apply keys_adel_in in I. tauto.
            * rewrite alookup_adel_diff by auto. rewrite alookup_aset_diff by auto. reflexivity. }
      apply wp_when; intros E; [apply wp_setr|]; apply wp_setc, wp_setr; apply FIN.
      + apply negb_true_iff in E. rewrite E. auto.
      + apply negb_false_iff in E. rewrite E. auto.
    - apply wp_setr. constructor.
      + destruct s; reflexivity.
      + intros x. rewrite rsc_m_rsc. unfold full. rewrite B. cbn [andb]. change (rsc (m_comp ?a ?b ?z)) with (rsc z). rewrite !rsc_m_rsc, Nat.eqb_refl. destruct (Nat.eqb x r); auto.
      + intros x. unfold full. rewrite B. destruct (qeqb_spec x (QClaim r)) as [->|]; reflexivity.
      + intros d D. change (comps (m_rsc r r_tally ?z) d) with (comps z d). rewrite comps_diff by auto. reflexivity.
      + eexists. split.
        * change (comps (m_rsc r r_tally ?z) c) with (comps z c). rewrite comps_same. reflexivity.
        * intros x. cbn [c_claims w_claims]. unfold full. rewrite B. destruct (Nat.eqb_spec x r) as [->|D]; [rewrite alookup_aset_same | rewrite alookup_aset_diff by auto]; reflexivity.
  Qed.
  Lemma release1_split : forall n c r q b s, release1 n c r q b s = (release1 n c r q true ;;; when (negb b) (r_try n r)) s.
  Proof.
    intros n c r q b s. unfold release1. cbv zeta.
    assert (E : forall A (f : env -> A) B (k : A -> M B) s, bind (get f) k s = k (f s) s) by reflexivity.
    assert (E2 : forall A (f : env -> A) B (k : A -> M B) (t : M unit) s, ((bind (get f) k) ;;; t) s = (k (f s) ;;; t) s) by reflexivity.
    rewrite E, E2.
    destruct (alookup r (c_claims (comps s c))) as [v|]; [|reflexivity].
    set (q0 := match q with None => v | Some x => if Qltb v x then v else x end).
    cbn [negb when]. unfold bind, ret. repeat match goal with |- context [match ?m ?z with _ => _ end] => destruct (m z) as [? [?|?]] end; reflexivity.
  Qed.
  Definition taken_back (v : Q) (q : option Q) : Q := match q with None => v | Some x => if Qltb v x then v else x end.
  Lemma taken_le : forall v q, taken_back v q <= v.
  Proof. intros v [x|]; cbn; [|lra]. destruct (Qltb v x) eqn:E; [lra|]. unfold Qltb in E. apply negb_false_iff, Qle_bool_iff in E. auto. Qed.
  Lemma w_release1 : forall n c r q s, GI none s ->
    wp (release1 n c r q true) (fun _ s' => GI none s' /\ exists v, alookup r (c_claims (comps s c)) = Some v /\ gave s c r v (taken_back v q) s')
       (fun _ s' => s' = s) s.
  Proof.
    intros n c r q s G.
    assert (GG : wp (release1 n c r q true) (fun _ s' => GI none s') (fun _ s' => GI none s') s).
    { apply w_rg; auto with gq. }
    assert (K : wp (release1 n c r q true) (fun _ s' => exists v, alookup r (c_claims (comps s c)) = Some v /\ gave s c r v (taken_back v q) s') (fun _ s' => s' = s) s).
    { unfold release1. apply wp_bind, wp_get. destruct (alookup r (c_claims (comps s c))) as [v|] eqn:A; [|apply wp_raise; auto]. cbv zeta.
      pose proof (w_gave c r v (taken_back v q) s G A) as W. fold (taken_back v q). cbn [negb when].
      eapply wp_of_eq; [|eapply wp_conseq with (Q := fun _ s' => exists v0, Some v = Some v0 /\ gave s c r v0 (taken_back v0 q) s') (X := fun _ _ => False);
          [eapply wp_conseq; [exact W | |]; cbv beta | |]; cbv beta; auto].
      - unfold bind, ret. repeat match goal with |- context [match ?m ?z with _ => _ end] => destruct (m z) as [? [[]|?]] end; reflexivity.
      - eauto.
      - tauto. }
    eapply wp_conseq; [apply wp_and; [exact GG | exact K] | |]; cbv beta; tauto.
  Qed.
  Lemma rp_release1 : forall n c r q b, (forall v, P (LFree c r v (taken_back v q) false)) -> frames (RP P) (release1 n c r q b).
  Proof.
    intros n c r q b HF.
    assert (F : frames (RP P) (release1 n c r q true)).
    { apply RP_intro. intros s G. eapply wp_conseq; [apply (w_release1 n c r q s G) | |]; cbv beta.
      - intros _ s' (G' & v & A & V). split; auto. eapply rpath_one with (l := LFree c r v (taken_back v q) false); auto.
        split; auto. split; [apply taken_le|]. split; [discriminate | auto].
      - intros e s' ->. split; auto. apply rp_nil. }
    intros s. rewrite release1_split. revert s. change (frames (RP P) (release1 n c r q true;;; when (negb b) (r_try n r))).
    apply (fr_bind _ (RP_po P)); auto. intros. apply (fr_when _ (RP_po P)). auto with rp.
  Qed.
  (** the same within a preempting request *)
  Definition RB (r : nat) (s s' : env) : Prop := r_preempt (rsc s r) = true -> RP P s s' /\ r_preempt (rsc s' r) = true.
  Lemma RB_po : forall r, preorder (RB r).
  Proof.
    intros r. constructor.
    - intros s H. split; auto. apply (RP_po P).
    - intros a b c A B H. destruct (A H) as (A1 & A2). destruct (B A2) as (B1 & B2). split; auto. eapply (po_trans _ (RP_po P)); eauto.
  Qed.
  Definition Rpre (r : nat) (s s' : env) : Prop := r_preempt (rsc s' r) = r_preempt (rsc s r).
  Lemma Rpre_po : forall r, preorder (Rpre r). Proof. intros r. constructor; unfold Rpre; congruence. Qed.
  Lemma Rpre_m : forall r x f s, (forall y, r_preempt (f y) = r_preempt y) -> Rpre r s (m_rsc x f s).
  Proof. intros r x f s H. unfold Rpre. rewrite rsc_m_rsc. destruct (Nat.eqb_spec r x) as [->|]; auto. Qed.
  Lemma rb_release1 : forall n c r, (forall v, P (LFree c r v v true)) -> frames (RB r) (release1 n c r None true).
  Proof.
    intros n c r HF s H. split; [|].
    - intros G. apply wp_fst. eapply wp_conseq; [apply (w_release1 n c r None s G) | |]; cbv beta.
      + intros _ s' (G' & v & A & V). split; auto. eapply rpath_one with (l := LFree c r v v true); auto.
        split; auto. split; [lra|]. auto.
      + intros e s' ->. split; auto. apply rp_nil.
    - assert (F : frames (Rpre r) (release1 n c r None true)).
      { unfold release1, q_leave. cbn [negb when]. fgo (Rpre_po r); first [apply Rpre_m; reflexivity | reflexivity]. }
      rewrite (F s). auto.
  Qed.
  Lemma rb_quiet : forall A r (m : M A), frames (quiet None) m -> frames (RG none) m -> frames (RB r) m.
  Proof.
    intros A r m F1 F2 s H. split; [apply RP_quiet; auto|]. pose proof (qt_rsc _ _ (F1 s) r) as E. destruct (rsc s r), (rsc (fst (m s)) r). injection E. cbn in *. congruence.
  Qed.
  Lemma rp_release : forall n c a, (forall r v, P (LFree c r v v false)) -> (forall r q v, In (r, q) a -> P (LFree c r v (taken_back v q) false)) -> frames (RP P) (release n c a).
  Proof.
    intros n c a H1 H2. unfold release. destruct a as [|a0 a1].
    - frp P. apply rp_release1. intros v. apply H1.
    - assert (K : forall l, (forall x, In x l -> In x (a0 :: a1)) -> frames (RP P) (mfor l (fun a =>
           an <- get (fun s => r_anon (rsc s (fst a))) ;;
           if (an : bool) then raise ValueErr else release1 n c (fst a) (snd a) false))).
      { induction l as [|(r, q) t IH]; intros I; cbn [mfor]; [apply (fr_ret _ (RP_po P))|].
        apply (fr_bind _ (RP_po P)); [|intros; apply IH; intros; apply I; right; auto].
        cbn [fst snd]. frp P. apply rp_release1. intros v. apply H2. apply I. left; auto. }
      apply K. auto.
  Qed.
  Lemma rp_release_claimers : forall f r, (forall c v, P (LFree c r v v false)) -> forall n mx, frames (RP P) (release_claimers f n r mx).
  Proof.
    intros f r HF. induction n; intros mx; cbn [release_claimers]; destruct mx as [[c p]|]; frp P; auto.
    unfold release. cbn [mfor fst snd]. frp P. apply rp_release1. intros v. apply HF.
  Qed.
  Lemma rset_GI : forall s r x s', rset s r x s' -> GI none s -> GI none s'.
  Proof. intros s r x s' (E & _) G. eapply GI_same; [| | exact G]; rewrite E; reflexivity. Qed.
  Lemma rp_res_release : forall n r q, P (LAnon r q) -> (forall c v, P (LFree c r v v false)) -> frames (RP P) (res_release n r q).
  Proof.
    intros n r q HA HF. unfold res_release. apply RP_intro. intros s G. apply wp_bind, wp_get.
    destruct (r_anon (rsc s r)) eqn:AN.
    - apply wp_bind, wp_setr, wp_bind, wp_get, wp_bind. rewrite rsc_m_rsc, Nat.eqb_refl. cbn [r_claimed w_claimed].
      set (y := r_claimed (rsc s r) - match q with None => r_claimed (rsc s r) | Some v => v end).
      assert (K : forall s1, rset s r (anon_after q (rsc s r)) s1 -> wp (r_try n r) (fun _ s' => GI none s' /\ rpath P s s') (fun _ s' => GI none s' /\ rpath P s s') s1).
      { intros s1 E. pose proof (rset_GI _ _ _ _ E G) as G1. eapply w_rp; auto with rp. eapply rpath_one with (l := LAnon r q); auto. split; auto. }
      apply wp_when; intros B; [apply wp_setr|]; apply wp_bind, wp_setr; apply K; (split; [destruct s; reflexivity|]); intros x;
        rewrite !rsc_m_rsc, !Nat.eqb_refl; destruct (Nat.eqb x r); auto; unfold anon_after; fold y; rewrite B; reflexivity.
    - destruct q; [apply wp_raise; split; [auto | apply rp_nil]|]. apply wp_bind, wp_get.
      eapply w_rp; auto using rp_release_claimers. apply rp_nil.
  Qed.
  Lemma rp_set_cap : forall n r cap, P (LCap r cap) -> frames (RP P) (set_cap n r cap).
  Proof.
    intros n r cap HC. unfold set_cap. apply RP_intro. intros s G. apply wp_bind, wp_setr, wp_bind, wp_setr.
    match goal with |- wp _ _ _ ?z => set (s1 := z) end.
    assert (E : rset s r (cap_after cap (rsc s r)) s1).
    { split; [destruct s; reflexivity|]. intros x. unfold s1. rewrite !rsc_m_rsc, !Nat.eqb_refl. destruct (Nat.eqb x r); reflexivity. }
    pose proof (rset_GI _ _ _ _ E G) as G1. eapply w_rp; auto with rp. eapply rpath_one with (l := LCap r cap); auto.
  Qed.
  Lemma rp_cancel : forall n c, (forall r v, P (LFree c r v v false)) -> frames (RP P) (cancel n c).
  Proof. intros n c HF. unfold cancel. frp P; auto with rp. apply rp_release1. intros v. apply HF. Qed.
  Lemma rp_terminate : forall n c, (forall r v, P (LFree c r v v false)) -> frames (RP P) (terminate n c).
  Proof. intros n c HF. unfold terminate. frp P. apply rp_release1. intros v. apply HF. Qed.
  Lemma rp_continue : forall n c, frames (RP P) (continue n c).
  Proof. intros n c. unfold continue. frp P. auto with rp. Qed.
  Lemma rp_step : forall n, frames (RP P) (step n).
  Proof. intros n. unfold step, step_event. frp P; auto using rp_continue with rp. Qed.
  Lemma rp_request1 : forall n c b a, P (LAsk c (fst (fst a)) (snd (fst a))) -> (forall d v, P (LFree d (fst (fst a)) v v true)) -> frames (RP P) (request1 n c b a).
  Proof.
    intros n c b ((r, q), p) HA HF. cbn [fst snd] in *. apply RP_intro. intros s G. unfold request1.
    assert (Z : GI none s /\ rpath P s s) by (split; [auto | apply rp_nil]).
    apply wp_bind, wp_get, wp_bind, wp_when; intros _; [apply wp_raise; auto|]. apply wp_bind, wp_when; intros B; [apply wp_raise; auto|].
    assert (HN : Qltb q 0 = true -> r_anon (rsc s r) = true). { intros E. rewrite E in B. cbn in B. destruct (r_anon (rsc s r)); [auto | discriminate]. }
    pose proof (gq_request1 n c b (r, q, p)) as GR.
    apply wp_bind, wp_setc, wp_bind. change (m_comp c _ s) with (asked s c r q). unfold q_enter at 1. apply wp_bind, wp_get.
    change (qs (asked s c r q) (QReq r)) with (qs s (QReq r)). apply wp_if; intros I.
    - apply wp_raise. assert (G1 : GI none (asked s c r q)).
      { apply inq_iff in I. apply GI_comp; auto. apply (gi_mem _ _ G (QReq r) c eq_refl) in I.
        destruct I as (I & _). cbn in I. unfold lists. cbn. rewrite keys_aset_same; auto. }
      split; auto. eapply rpath_one with (l := LAsk c r q); auto. split; auto.
    - apply wp_put.
      match goal with |- wp _ _ _ ?z => assert (H2 : GI none z) end.
      { pose proof I as I0. apply inq_false in I. apply GI_enter; auto; [|unfold asked; rewrite comps_same; cbn; apply keys_aset_in; auto].
        assert (NL : ~ lst (comps s c) (QReq r)).
        { intros L. apply I. apply (gi_mem _ _ G (QReq r) c eq_refl). split; [exact L | auto]. }
        unfold asked. apply GI_set with (W := none); auto.
        + intros x _. unfold plus, none. destruct x; cbn in *; try (intuition congruence).
          rewrite keys_aset_in. destruct (Nat.eq_dec r0 r) as [->|]; intuition congruence.
        + unfold plus. intuition.
        + pose proof (gi_ks _ _ G c). unfold okks in *. cbn. intuition. apply NoDup_aset; auto. }
      match goal with |- wp _ _ _ ?z => assert (RA : rpath P s z) end.
      { eapply rpath_one with (l := LAsk c r q); auto. split; auto. right. split; auto. eauto. }
      apply wp_when; intros PB; [|split; auto].
      match goal with |- wp ?m _ _ ?z => assert (F : frames (RB r) m) end.
      { fgo (RB_po r).
        - apply rb_release1. auto.
        - apply rb_quiet; auto using gq_activate with qt. }
      eapply wp_conseq; [apply (frames_wp _ _ _ _ F) | |]; cbv beta; intros ? s' K; destruct (K PB) as (K1 & _); destruct (K1 H2); (split; [auto | eapply rpath_trans; eauto]).
  Qed.
  Lemma rp_request : forall n c args o f p u cap, (forall r q pr, In (r, q, pr) args -> P (LAsk c r q)) ->
    (forall d r q pr v, In (r, q, pr) args -> P (LFree d r v v true)) -> P (LQuiet (Some c)) -> frames (RP P) (request n c args o f p u cap).
  Proof.
    intros n c args o f p u cap HA HF H1. unfold request.
    assert (K : forall b, frames (RP P) (mfor args (request1 n c b))).
    { intros b. revert HA HF. generalize args as l. induction l as [|a t IH]; intros HA HF; cbn [mfor]; [apply (fr_ret _ (RP_po P))|].
      apply (fr_bind _ (RP_po P)); [|intros; apply IH; intros; [eapply HA | eapply HF]; right; eauto].
      destruct a as ((r, q), pr). apply rp_request1; cbn; [eapply HA; left; eauto | intros; eapply HF; left; eauto]. }
    apply (fr_bind _ (RP_po P)); [|intros _].
    { intros s G. assert (G1 : GI none (m_comp c (w_oneof o) s)) by (apply GI_comp; auto). split; auto.
      eapply rpath_one with (l := LQuiet (Some c)); auto. apply quiet_one. }
    apply (fr_bind _ (RP_po P)); [frp P | intros st].
    apply (fr_bind _ (RP_po P)); [frp P; auto with rp; apply RP_quiet; auto with qt gq | intros _].
    apply (fr_bind _ (RP_po P)); [apply RP_quiet; auto with qt gq | intros t]. apply (fr_bind _ (RP_po P)); [frp P | intros _].
    destruct args as [|a0 t0]; [frp P; auto with rp|].
    apply (fr_bind _ (RP_po P)); [apply K | intros _].
    frp P; auto with rp; try (apply rp_c_try; auto with rp; fail).
    apply RP_trying; auto. match goal with |- context [xltb ?a ?b] => destruct (xltb a b) end; reflexivity.
  Qed.
End Paths.

(** whose claims an operation can take away *)
Definition frees (s : env) (o : op) (c : nat) : Prop :=
  match o with
  | OCancel x | ORelease x _ => x = c
  | OEnd => cur s = c
  | OResRelease _ _ => True
  | _ => False
  end.
(** which changes an operation, called in s0, can make *)
Definition labs (s0 : env) (o : op) (l : lab) : Prop :=
  match l with
  | LQuiet None | LGrant _ => True
  | LQuiet (Some c) => exists args one f p u cap, o = ORequest c args one f p u cap
  | LAsk c r q => exists args one f p u cap pr, o = ORequest c args one f p u cap /\ In (r, q, pr) args
  | LFree c r v q0 true => q0 = v /\ exists d args one f p u cap q pr, o = ORequest d args one f p u cap /\ In (r, q, pr) args
  | LFree c r v q0 false => frees s0 o c /\ (q0 = v \/ exists args q, o = ORelease c args /\ In (r, q) args /\ q0 = taken_back v q)
  | LAnon r q => o = OResRelease r q
  | LCap r cap => o = OSetCap r cap
  end.
Definition still_op (o : op) : bool :=
  match o with
  | OCancel _ | ORequest _ _ _ _ _ _ _ | ORelease _ _ | OResRelease _ _ | OSetCap _ _ | OStep | OEnd => false
  | _ => true
  end.
Lemma qt_exec : forall n o, still_op o = true -> frames (quiet None) (exec n o).
Proof.
  intros n o H. destruct o; try discriminate; cbn [exec]; auto using qt_create, qt_activate, qt_hold, qt_passivate, qt_interrupt, qt_resume,
    qt_standby, qt_set_remaining, qt_wait, qt_wait_for, qt_st_set, qt_st_trigger, qt_from_store, qt_to_store, qt_item_enter, qt_item_leave,
    qt_st_set_cap, qt_rescan, qt_set_filter, qt_run; unfold reset_now; fqt.
Qed.
Lemma rp_exec : forall n o s, still_op o = false -> RP (labs s o) s (fst (exec n o s)).
Proof.
  intros n o s H. destruct o; try discriminate; cbn [exec].
  - apply rp_cancel; cbn; auto.
  - apply rp_request; cbn; auto.
    + intros r q pr I. exists args, oneof, fail, prio, urgent, cap, pr. auto.
    + intros d r q pr v I. split; auto. exists c, args, oneof, fail, prio, urgent, cap, q, pr. auto.
    + exists args, oneof, fail, prio, urgent, cap. auto.
  - apply rp_release; cbn; auto. intros r q v I. split; auto. right. eauto.
  - apply rp_res_release; cbn; auto.
  - apply rp_set_cap; cbn; auto.
  - apply rp_step; cbn; auto.
  - change (RP (labs s OEnd) s (fst (terminate n (cur s) s))). apply rp_terminate; cbn; auto.
Qed.
(** every call is a series of elementary changes, whatever its outcome *)
Lemma exec_path : forall n o s s' r, QI s -> wf s o -> exec n o s = (s', r) -> (forall e, r = Er e -> caught o e /\ calm o) -> rpath (labs s o) s s'.
Proof.
  intros n o s s' r Q W E H. pose proof (QI_exec _ _ _ _ _ Q W E H) as Q'.
  destruct (still_op o) eqn:S.
  - eapply rpath_one with (l := LQuiet None); [exact Logic.I | apply (qi_g _ Q) | | apply (qi_g _ Q')].
    replace s' with (fst (exec n o s)) by (rewrite E; auto). apply qt_exec; auto.
  - replace s' with (fst (exec n o s)) by (rewrite E; auto). apply rp_exec; auto. apply (qi_g _ Q).
Qed.
