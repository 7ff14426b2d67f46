(** Properties C20 (cases), C22, C23 and C60: the cascade of retries; a resource named twice; releasing a resource. *)
From Coq Require Import QArith Lqa List Bool Arith ZArith Lia.
From Verif Require Import Base Kernel Wp KernelE KernelL KernelX KernelT KernelU KernelR KernelQ KernelS KernelI KernelP KernelO KernelA KernelB KernelC KernelD KernelF KernelG KernelV KernelW KernelH PropRes PropReq PropWake PropGrant.
Import ListNotations.
Open Scope Q_scope.

(** ** Cases for C20 *)
(** 2 (asks 2) is in front of 3 (asks 3); 1 releases everything: both are honored *)
Definition queued : env := after (line ++ [OStep]).
Definition rel1 : op := ORelease 1 [].
Lemma one_call : forall s o s' c1 c2, callk s o s' -> c_requests (comps s c1) <> [] -> untouched s o c1 -> untouched s o c2 -> while_waiting c1 c2 s s'.
Proof. intros. eapply ww_step; eauto. apply ww_nil. Qed.
Example C20_case_not_overtaken : let s := queued in let s' := fst (exec 19 rel1 queued) in
  reach_k s /\ ordinary s 0%nat /\ r_anon (rsc s 0%nat) = false /\ c_status (comps s 2%nat) = Requesting /\ c_requests (comps s 2%nat) = [(0%nat, 2)] /\
  c_requests (comps s 3%nat) = [(0%nat, 3)] /\ in_front s 0 2 3 /\ while_waiting 2 3 s s' /\ c_requests (comps s' 3%nat) = [].
Proof.
  cbv zeta. split; [unfold queued; reached|]. split; [apply (proj2 (ordinary_exc _ _)); vm_compute; reflexivity|].
  split; [vm_compute; reflexivity|]. split; [vm_compute; reflexivity|]. split; [vm_compute; reflexivity|]. split; [vm_compute; reflexivity|].
  split; [exists [(2%nat, Fin 0)], [(3%nat, Fin 0); (4%nat, Fin 0)]; split; [vm_compute; reflexivity|]; split; left; reflexivity|].
  split; [|vm_compute; reflexivity].
  apply one_call with (o := rel1); [apply callk_ok; vm_compute; reflexivity | vm_compute; discriminate | |]; (split; [discriminate | intros []]).
Qed.
(** honor_only_first: 3 in front of nobody; it is honored only together with 2 *)
Definition queued1 : env := after [mk 1; mk 2; mk 3; go; OStep; req 1 [(3%nat, 2, Fin 0)]; OStep; req 2 [(3%nat, 1, Fin 0)]; OStep; req 3 [(3%nat, 1, Fin 0)]; OStep].
Example C20_case_first_only : let s := queued1 in let s' := fst (exec 19 rel1 queued1) in
  reach_k s /\ r_hfirst (rsc s 3%nat) = true /\ c_oneof (comps s 3%nat) = false /\ in_front s 3 2 3 /\ while_waiting 2 3 s s' /\
  c_requests (comps s' 2%nat) = [] /\ c_requests (comps s' 3%nat) = [(3%nat, 1)] /\
  let s'' := fst (exec 19 (OSetCap 3 (Fin 4)) s') in callk s' (OSetCap 3 (Fin 4)) s'' /\ c_requests (comps s'' 3%nat) = [].
Proof.
  cbv zeta. split; [unfold queued1; reached|]. split; [vm_compute; reflexivity|]. split; [vm_compute; reflexivity|].
  split; [exists [(2%nat, Fin 0)], [(3%nat, Fin 0)]; split; [vm_compute; reflexivity|]; split; left; reflexivity|].
  split; [apply one_call with (o := rel1); [apply callk_ok; vm_compute; reflexivity | vm_compute; discriminate | |]; (split; [discriminate | intros []])|].
  split; [vm_compute; reflexivity|]. split; [vm_compute; reflexivity|]. split; [apply callk_ok; vm_compute; reflexivity | vm_compute; reflexivity].
Qed.
(** 4 asks 3 with priority -1: it is placed in front of 2 and 3; with priority 0: behind them *)
Definition queued2 : env := after (removelast line).
Example C20_case_place : forall p, p = -1 \/ p = 0 -> let o := req 4 [(0%nat, 3, Fin p)] in reach_k queued2 /\ wf queued2 o /\ c_status (comps queued2 4%nat) = Current /\ ordinary queued2 0%nat /\
  snd (exec 19 o queued2) = Ok tt /\ c_requests (comps (fst (exec 19 o queued2)) 4%nat) <> [] /\ qs queued2 (QReq 0) = [(2%nat, Fin 0); (3%nat, Fin 0)] /\
  c_status (comps queued2 2%nat) = Requesting /\ c_requests (comps queued2 2%nat) = [(0%nat, 2)].
Proof.
  intros p [->| ->]; cbv zeta; (split; [unfold queued2; reached|]); (split; [apply wfb_wf; vm_compute; reflexivity|]); (split; [vm_compute; reflexivity|]);
  (split; [apply (proj2 (ordinary_exc _ _)); vm_compute; reflexivity|]); (split; [vm_compute; reflexivity|]); (split; [vm_compute; discriminate|]);
  (split; [vm_compute; reflexivity|]); (split; vm_compute; reflexivity).
Qed.

(** ** C22 *)
(** every call that may set off a cascade of retries ends (with a result or an exception that is not due to the model's fuel) *)
Theorem C22_ends : forall s o, reachable s -> still_op o = false ->
  exists n0 s' r, r <> Er OutOfFuel /\ forall n, (n0 <= n)%nat -> exec n o s = (s', r).
Proof.
  intros s o R SO. pose proof (qi_g _ (reach_p_QI _ _ R)) as G.
  destruct (finite_L s (match o with ORequest c _ _ _ _ _ _ => c | _ => 0%nat end) (reach_finite _ _ R)) as (L & ND & IC & SU).
  assert (I : Inv L s) by (split; auto).
  set (n0 := (need (length L) + match o with OResRelease r _ => mu L r s + 1 | _ => 0 end)%nat).
  assert (HN : (need (length L) <= n0)%nat) by (unfold n0; lia).
  assert (K : snd (exec n0 o s) <> Er OutOfFuel).
  { assert (TT : T L (exec n0 o) -> snd (exec n0 o s) <> Er OutOfFuel).
    { intros H. specialize (H s I). unfold wp in H. destruct (exec n0 o s) as [s' [x|e]]; cbn in *; [discriminate|]. intros Z. injection Z as ->. destruct H as (_ & H). auto. }
    destruct o; try discriminate; match goal with |- context [OResRelease _ _] => idtac | _ => apply TT; cbn [exec] end.
    - apply T_cancel; auto.
    - apply T_request; auto.
    - apply T_release; auto.
    - pose proof (t_res_release L n0 HN r q s I) as W. cbn [exec]. unfold wp in W.
      assert (M : (mu L r s + 1 <= n0)%nat) by (unfold n0; lia). specialize (W M).
      destruct (res_release n0 r q s) as [s' [x|e]]; cbn [snd]; [discriminate | congruence].
    - apply T_set_cap; auto.
    - apply T_step; auto.
    - apply T_get. intros. apply T_terminate; auto. }
  exists n0, (fst (exec n0 o s)), (snd (exec n0 o s)). split; auto. intros n LE. eapply exec_fuel; eauto. apply surjective_pairing.
Qed.
(** the elementary resource changes of a call, in order *)
Inductive trace : env -> list lab -> env -> Prop :=
| tr_nil : forall s, trace s [] s
| tr_cons : forall s l s1 ls s2, lstep l s s1 -> trace s1 ls s2 -> trace s (l :: ls) s2.
Definition honored (ls : list lab) : list nat := flat_map (fun l => match l with LGrant c => [c] | _ => [] end) ls.
Lemma rpath_trace : forall (P : lab -> Prop) s s', rpath P s s' -> exists ls, trace s ls s' /\ Forall P ls.
Proof.
  intros P s s' H. induction H as [s|l s s1 s2 PL G H G1 R IH]; [exists []; split; constructor|]. destruct IH as (ls & T & F).
  exists (l :: ls). split; [eapply tr_cons; eauto | constructor; auto].
Qed.
Lemma none_left : forall s ls s' c, trace s ls s' -> (forall r q, ~ In (LAsk c r q) ls) -> c_requests (comps s c) = [] -> ~ In c (honored ls).
Proof.
  intros s ls s' c T. induction T as [s|s l s1 ls s2 H T IH]; intros N E; [intros []|].
  assert (E1 : c_requests (comps s1 c) = []) by (destruct (reqs_step l s s1 c H) as [K|K]; [intros r q ->; apply (N r q); left; auto | congruence | auto]).
  assert (I : ~ In c (honored ls)) by (apply IH; auto; intros r q K; apply (N r q); right; auto).
  destruct l; cbn [honored flat_map app]; auto. intros [->|K]; auto. destruct H as (_ & NG & _). apply NG. apply grant_nil; auto.
Qed.
(** in one call every component, except one that makes a new request in that very call, is honored at most once *)
Theorem C22_once : forall s o s', reachable s -> call s o s' ->
  exists ls, trace s ls s' /\ Forall (labs s o) ls /\
  forall c, (forall args one f p u cap, o <> ORequest c args one f p u cap) -> (count_occ Nat.eq_dec (honored ls) c <= 1)%nat.
Proof.
  intros s o s' R C. destruct (rpath_trace _ _ _ (call_path _ _ _ _ R C)) as (ls & T & F). exists ls. split; auto. split; auto.
  intros c N. assert (NA : forall r q, ~ In (LAsk c r q) ls).
  { intros r q I. rewrite Forall_forall in F. destruct (F _ I) as (args & one & f & p & u & cap & pr & -> & _). apply (N args one f p u cap). auto. }
  clear - T NA. induction T as [s|s l s1 ls s2 H T IH]; [cbn; lia|].
  assert (NA' : forall r q, ~ In (LAsk c r q) ls) by (intros r q I; apply (NA r q); right; auto). specialize (IH NA').
  destruct l; cbn [honored flat_map app]; auto. fold (honored ls). cbn [count_occ]. destruct (Nat.eq_dec c0 c) as [->|]; auto.
  assert (K : ~ In c (honored ls)).
  { eapply none_left; eauto. destruct H as (_ & _ & s3 & _ & ->). rewrite comps_same. reflexivity. }
  apply (count_occ_not_In Nat.eq_dec) in K. rewrite K. lia.
Qed.
(** two components are honored by one release *)
Example C22_case : reachable queued /\ call queued rel1 (fst (exec 19 rel1 queued)) /\ still_op rel1 = false /\
  c_requests (comps queued 2%nat) <> [] /\ c_requests (comps queued 3%nat) <> [] /\
  claim_of (fst (exec 19 rel1 queued)) 0 2 == 2 /\ claim_of (fst (exec 19 rel1 queued)) 0 3 == 3.
Proof.
  split; [apply reach_k_p; unfold queued; reached|]. split; [apply call_ok; vm_compute; reflexivity|]. split; [reflexivity|].
  split; [vm_compute; discriminate|]. split; [vm_compute; discriminate|]. split; vm_compute; reflexivity.
Qed.

(** ** C23 *)
Definition names (args : list (nat * Q * xq)) : list nat := map (fun a => fst (fst a)) args.
Lemma w_request1_multi : forall n c r q p s, wp (request1 n c true (r, q, p)) (fun _ s' => ~ In c (map fst (qs s (QReq r))) /\
    forall x, qs s' (QReq x) = if Nat.eqb x r then ins_sorted c p (qs s (QReq r)) else qs s (QReq x)) (fun e _ => e = ValueErr) s.
Proof.
  intros n c r q p s. unfold request1. apply wp_bind, wp_get, wp_bind, wp_when; intros B; [apply wp_raise; auto|]. rewrite andb_true_r in B. apply wp_bind, wp_when; intros _; [apply wp_raise; auto|].
  apply wp_bind, wp_setc, wp_bind. unfold q_enter at 1. apply wp_bind, wp_get. apply wp_if; intros IQ; [apply wp_raise; auto|]. apply inq_false in IQ. apply wp_put.
  rewrite B. apply wp_ret. split; [exact IQ|]. intros x. rewrite qs_m_q. cbn [qeqb]. destruct (Nat.eqb_spec x r) as [->|]; reflexivity.
Qed.
Lemma in_ins : forall c p l, In c (map fst (ins_sorted c p l)).
Proof.
  assert (T : forall c p l, In c (map fst (ins_tail c p l))).
  { induction l as [|(d, q) t IH]; cbn [ins_tail]; [left; auto|]. destruct (forallb _ _); [left; auto | right; auto]. }
  intros c p l. unfold ins_sorted. destruct l as [|y t]; [left; auto|]. destruct (xltb _ _); [left; auto | apply T].
Qed.
Lemma w_args_multi : forall n c args s, wp (mfor args (request1 n c true)) (fun _ _ => NoDup (names args) /\ forall r, In r (names args) -> ~ In c (map fst (qs s (QReq r)))) (fun e _ => e = ValueErr) s.
Proof.
  intros n c. induction args as [|((r, q), p) t IH]; intros s; cbn [mfor]; [apply wp_ret; split; [constructor | intros ? []]|].
  apply wp_bind. eapply wp_conseq; [apply w_request1_multi | cbv beta | cbv beta; auto]. intros _ s1 (N & Q1).
  eapply wp_conseq; [apply IH | cbv beta | cbv beta; auto]. intros _ s2 (ND & NI). cbn. split.
  - constructor; auto. intros I. apply (NI r I). rewrite Q1, Nat.eqb_refl. apply in_ins.
  - intros x [<-|I]; auto. specialize (NI x I). rewrite Q1 in NI. destruct (Nat.eqb_spec x r) as [E|E]; [subst x|]; auto.
Qed.
(** naming a resource twice in one request never works: it always raises a ValueError *)
Theorem C23_never : forall s n c args one f pr u cap, c_status (comps s c) = Current -> ~ NoDup (names args) ->
  snd (exec n (ORequest c args one f pr u cap) s) = Er ValueErr.
Proof.
  intros s n c args one f pr u cap ST ND.
  assert (WP : wp (request n c args one f pr u cap) (fun _ _ => False) (fun e _ => e = ValueErr) s).
  { unfold request. apply wp_bind, wp_setc, wp_bind, wp_stat, wp_bind. rewrite comps_same. cbn [c_status w_oneof]. rewrite ST. apply wp_ret.
    apply wp_bind. destruct f; cbn [fail_time]; [apply wp_ret | apply wp_get | apply wp_get | apply wp_raise; auto].
    all: apply wp_bind, wp_setc.
    all: assert (L : exists a b l, args = a :: b :: l) by (destruct args as [|a [|b l]]; [destruct ND; apply NoDup_nil | destruct ND; apply NoDup_cons; [intros [] | apply NoDup_nil] | eauto]).
    all: assert (M : (1 <? length args)%nat = true) by (destruct L as (a & b & l & ->); reflexivity).
    all: destruct args as [|a0 args0]; [destruct ND; apply NoDup_nil|].
    all: apply wp_bind; rewrite M; eapply wp_conseq; [apply w_args_multi | cbv beta; tauto | cbv beta; auto]. }
  cbn [exec]. unfold wp in WP. destruct (request _ _ _ _ _ _ _ _ _) as [s' [a|e]]; [destruct WP | cbn; congruence].
Qed.
Theorem C23_refuted : exists s c r n, reachable s /\ wf s (req c [(r, 2, Fin 0); (r, 3, Fin 0)]) /\ wf s (req c [(r, 5, Fin 0)]) /\
  snd (exec n (req c [(r, 5, Fin 0)]) s) = Ok tt /\ claim_of (fst (exec n (req c [(r, 5, Fin 0)]) s)) r c == 5 /\
  snd (exec n (req c [(r, 2, Fin 0); (r, 3, Fin 0)]) s) = Er ValueErr /\
  (* the component is left behind in the requesters queue, though it goes on *)
  c_status (comps (fst (exec n (req c [(r, 2, Fin 0); (r, 3, Fin 0)]) s)) c) = Current /\
  In c (map fst (qs (fst (exec n (req c [(r, 2, Fin 0); (r, 3, Fin 0)]) s)) (QReq r))).
Proof.
  exists (aftr [mk 1; go; OStep]), 1%nat, 0%nat, 19%nat. split; [reached_p|]. split; [apply wfb_wf; vm_compute; reflexivity|]. split; [apply wfb_wf; vm_compute; reflexivity|].
  repeat split; try (vm_compute; reflexivity). vm_compute. left. reflexivity.
Qed.
Example C23_case : c_status (comps (aftr [mk 1; go; OStep]) 1%nat) = Current /\ ~ NoDup (names [(0%nat, 2, Fin 0); (1%nat, 1, Fin 0); (0%nat, 3, Fin 0)]).
Proof. split; [vm_compute; reflexivity|]. cbn. intros H. inversion H as [|? ? N _]. apply N. right. left. auto. Qed.

(** ** C60 *)
(** with one claimer the call is the release by that claimer *)
Theorem C60_single : forall n r d p s, (1 < n)%nat -> r_anon (rsc s r) = false -> qs s (QClaim r) = [(d, p)] ->
  exec n (OResRelease r None) s = exec n (ORelease d [(r, None)]) s.
Proof.
  intros n r d p s N A E. cbn [exec]. unfold res_release. unfold bind at 1. cbn [get]. rewrite A. unfold bind at 1. cbn [get]. rewrite E. cbn [hd_error].
  destruct n as [|[|n]]; try lia. cbn [release_claimers]. unfold bind at 1. cbn [get]. rewrite E.
  assert (IQ : inq d [(d, p)] = true) by (unfold inq; cbn; rewrite Nat.eqb_refl; auto). rewrite IQ. cbn [qnext]. rewrite Nat.eqb_refl.
  unfold bind at 1. set (m := release _ _ _ s). destruct m as [s1 [[]|e]]; reflexivity.
Qed.
Lemma keeps_claims : forall l s s' x r, lstep l s s' -> GI none s -> CL s -> (forall r' v q0 b, l <> LFree x r' v q0 b) -> claim_of s r x <= claim_of s' r x.
Proof.
  intros l s s' x r H G C N. destruct l; cbn in H.
  - unfold claim_of. rewrite (qt_cl _ _ H). lra.
  - assert (E : comps s' = comps (asked s c r0 q)) by (destruct H as (_ & [(_ & ->)|(_ & p & ->)]); auto).
    unfold claim_of. rewrite E. unfold asked. destruct (Nat.eq_dec x c) as [->|D]; [rewrite comps_same | rewrite comps_diff by auto]; cbn [c_claims w_requests]; lra.
  - destruct H as (_ & _ & H). destruct (Nat.eq_dec x c) as [->|D].
    + rewrite (claim_granted _ _ _ r H). destruct (r_anon (rsc s r)) eqn:A; cbn [orb]; [lra|]. destruct (memb r (grant s c)); cbn [negb]; [|lra].
      unfold asked_of. destruct (alookup r (c_requests (comps s c))) eqn:E; [|lra]. pose proof (cl_req _ C _ _ _ E A). lra.
    + destruct H as (s1 & T & ->). unfold claim_of. rewrite comps_diff, (tk_oth _ _ _ _ _ T) by auto. lra.
  - destruct H as (_ & _ & _ & V). assert (D : x <> c) by (intros ->; eapply N; eauto). unfold claim_of. rewrite (gv_oth _ _ _ _ _ _ V) by auto. lra.
  - destruct H as (_ & H & _). unfold claim_of. assert (E : comps s' = comps s) by (rewrite H; reflexivity). rewrite E. lra.
  - destruct H as (H & _). unfold claim_of. rewrite H. cbn. lra.
Qed.
(** with one claimer, only that one loses its claim *)
Theorem C60_one_claimer_partial : forall n r d p s s', reachable s -> ended s = false -> (1 < n)%nat -> r_anon (rsc s r) = false -> qs s (QClaim r) = [(d, p)] ->
  exec n (OResRelease r None) s = (s', Ok tt) -> forall x r', x <> d -> claim_of s r' x <= claim_of s' r' x.
Proof.
  intros n r d p s s' R W N A E X x r' D. rewrite (C60_single n r d p s N A E) in X.
  assert (C : call s (ORelease d [(r, None)]) s') by (split; [split; [exact W | exact Logic.I]|]; exists n, (Ok tt); split; [exact X | discriminate]).
  pose proof (call_path _ _ _ _ R C) as PA. pose proof (reach_AM _ _ R) as AA. set (z := s) in PA at 1. assert (L : forall l, labs z (ORelease d [(r, None)]) l -> forall r' v q0 b, l <> LFree x r' v q0 b).
  { intros l L r1 v q0 b ->. destruct b; cbn in L; [destruct L as (_ & ? & ? & ? & ? & ? & ? & ? & ? & ? & L & _); discriminate | destruct L as (L & _); congruence]. }
  clearbody z. clear - PA AA L. induction PA as [s|l s s1 s2 PL G H G1 PA IH]; [lra|].
  eapply Qle_trans; [eapply keeps_claims; eauto; apply AA | apply IH]. eapply AM_step; eauto.
Qed.
(** with two claimers or more also components that are honored meanwhile lose their claims: 1 has 2 and 2 has 1 of resource 5 (capacity 3);
    3 waits for 2, gets it when 1 is relieved of its claim, and loses it again *)
Definition crowd : list op := [mk 1; mk 2; mk 3; go; OStep; req 1 [(5%nat, 2, Fin 0)]; OStep; req 2 [(5%nat, 1, Fin 0)]; OStep; req 3 [(5%nat, 2, Fin 0)]].
Theorem C60_refuted : exists s r c n, reach_k s /\ r_anon (rsc s r) = false /\ c_status (comps s c) = Requesting /\ claim_of s r c == 0 /\
  snd (exec n (OResRelease r None) s) = Ok tt /\
  (* c has been honored and will go on *)
  c_status (comps (fst (exec n (OResRelease r None) s)) c) = Scheduled /\ c_requests (comps (fst (exec n (OResRelease r None) s)) c) = [] /\
  c_failed (comps (fst (exec n (OResRelease r None) s)) c) = false /\
  (* but it has nothing *)
  claim_of (fst (exec n (OResRelease r None) s)) r c == 0.
Proof.
  exists (after crowd), 5%nat, 3%nat, 19%nat. split; [reached|]. repeat split; vm_compute; reflexivity.
Qed.
Example C60_case : let s := aftr [mk 1; mk 2; go; OStep; req 1 [(0%nat, 5, Fin 0)]; OStep; req 2 [(0%nat, 2, Fin 0)]] in
  reachable s /\ ended s = false /\ r_anon (rsc s 0%nat) = false /\ qs s (QClaim 0) = [(1%nat, Fin 0)] /\ snd (exec 19 (OResRelease 0 None) s) = Ok tt /\
  claim_of (fst (exec 19 (OResRelease 0 None) s)) 0 2 == 2.
Proof. cbv zeta. split; [reached_p|]. repeat split; vm_compute; reflexivity. Qed.

Print Assumptions C22_ends.
Print Assumptions C22_once.
Print Assumptions C23_never.
Print Assumptions C23_refuted.
Print Assumptions C60_single.
Print Assumptions C60_one_claimer_partial.
Print Assumptions C60_refuted.
