(** Properties C13, C14: capacity, claimed quantities and their monitors. *)
From Coq Require Import QArith Lqa List Bool Arith ZArith Lia.
From Verif Require Import Base Kernel Wp KernelE KernelL KernelX KernelT KernelU KernelR KernelQ KernelS KernelA KernelB KernelC.
Import ListNotations.
Open Scope Q_scope.

(** executions of any length from a fresh environment, with any arguments *)
Definition reachable (s : env) : Prop := reach_p (fun _ _ => True) s.
Lemma reach_any : forall P s, reach_p P s -> reachable s.
Proof. intros P s. apply reach_p_weak. auto. Qed.
(** a call made in s, and what it is allowed to end with *)
Definition call (s : env) (o : op) (s' : env) : Prop :=
  wf s o /\ exists n r, exec n o s = (s', r) /\ forall e, r = Er e -> caught o e /\ calm o.
Lemma call_path : forall P s o s', reach_p P s -> call s o s' -> rpath (labs s o) s s'.
Proof. intros P s o s' R (W & n & r & E & C). eapply exec_path; eauto. eapply reach_p_QI; eauto. Qed.
Lemma AM_path : forall P s s', rpath P s s' -> AM s -> AM s'.
Proof. intros P s s' H A. apply (inv_path P AM) with (s := s); auto. intros; eapply AM_step; eauto. Qed.

(** test scripts for the examples *)
Definition any (s : env) (o : op) : bool := true.
Definition stp (b : env -> op -> bool) (e : env) (l : list op) : env := match script_p b 19 l e with Some s => s | None => e end.
Definition okp (b : env -> op -> bool) (e : env) (l : list op) : bool := match script_p b 19 l e with Some _ => true | None => false end.
Lemma stp_reach : forall (P : env -> op -> Prop) b l t0 R sv kc hp y d, (forall s o, b s o = true -> P s o) -> fresh R -> okp b (init t0 R sv kc hp y d) l = true ->
  reach_p P (stp b (init t0 R sv kc hp y d) l).
Proof.
  unfold okp, stp. intros P b l t0 R sv kc hp y d HB F H. exists t0, R, sv, kc, hp, y, d. split; auto.
  destruct (script_p b 19 l (init t0 R sv kc hp y d)) eqn:E; [|discriminate]. eapply script_p_runs; eauto.
Qed.
Lemma call_ok : forall o s, wfb s o = true -> snd (exec 19 o s) = Ok tt -> call s o (fst (exec 19 o s)).
Proof.
  intros o s W E. split; [apply wfb_wf; auto|]. exists 19%nat, (Ok tt). split; [|discriminate]. rewrite <- E. apply surjective_pairing.
Qed.
(** resource 0: capacity 5; resource 1: anonymous, capacity 4, 1 in use; resource 2: preemptive, capacity 3; others: capacity 3 *)
Definition rs0 (r : nat) : resource :=
  match r with
  | 0%nat => res0 (Fin 5) 0 false false false false
  | 1%nat => res0 (Fin 4) 1 true false false false
  | 2%nat => res0 (Fin 3) 0 false true false false
  | _ => res0 (Fin 3) 0 false false false false
  end.
Lemma rs0_fresh : fresh rs0.
Proof. intros r. unfold rs0. destruct r as [|[|[|r]]]; do 6 eexists; (split; [reflexivity|]); auto; discriminate. Qed.
Definition envr : env := init 0 rs0 (fun _ => 0%Z) (fun _ => PInf) (fun _ => true) false false.
Definition req (c : nat) (l : list (nat * Q * xq)) : op := ORequest c l false SNone (Fin 0) false None.
Definition mk (c : nat) : op := OCreate c None (Fin 0) (Fin 0) false false None.
Definition go : op := ORun (SDur (Fin 100)) PInf false None.
(** 1, 2, 3 and 4 are created; 1 claims 3 of 0, 2 asks 4 of 0 and has to wait, 3 claims 2 of 0 and 2 of 1 *)
Definition busy : list op :=
  [mk 1; mk 2; mk 3; mk 4; go; OStep; req 1 [(0%nat, 3, Fin 0)]; OStep; req 2 [(0%nat, 4, Fin 0)]; OStep; req 3 [(0%nat, 2, Fin 1); (1%nat, 2, Fin 0)]].

(** ** C13 *)
(** nothing negative is released *)
Definition nonneg_op (o : op) : Prop :=
  match o with
  | ORelease c args => forall r q, In (r, Some q) args -> 0 <= q
  | OResRelease r (Some q) => 0 <= q
  | _ => True
  end.
Definition within (s : env) (r : nat) : Prop := xle (Fin (r_claimed (rsc s r))) (xaddq (r_cap (rsc s r)) eps).

Lemma labs_nonneg : forall z o l s s', labs z o l -> nonneg_op o -> lstep l s s' -> CL s -> nonneg_lab l.
Proof.
  intros z o l s s' L N H C. destruct l; cbn in *; auto.
  - destruct H as (A & _). destruct (cl_pos _ C _ _ _ A) as (V & _). destruct b; [destruct L as (-> & _); auto|]. destruct L as (_ & [->|(args & x & -> & I & ->)]); auto.
    unfold taken_back. destruct x as [x|]; auto. destruct (Qltb v x); auto. eapply N; eauto.
  - subst o. destruct q; auto.
Qed.
Definition grew (s s' : env) (r : nat) : Prop :=
  r_cap (rsc s' r) = r_cap (rsc s r) /\
  (r_claimed (rsc s' r) <= r_claimed (rsc s r) \/ r_claimed (rsc s' r) <= 0 \/ within s' r).
Lemma grew_trans : forall a b c r, grew a b r -> grew b c r -> grew a c r.
Proof.
  intros a b c r (A1 & A2) (B1 & B2). split; [congruence|]. destruct B2 as [B2|[B2|B2]]; auto.
  destruct A2 as [A2|[A2|A2]]; [left; lra | right; left; lra |]. right. right. unfold within in *. rewrite B1.
  destruct (r_cap (rsc b r)); cbn in *; auto. lra.
Qed.
Lemma path_grew : forall z o r s s', rpath (fun l => labs z o l /\ not_cap l) s s' -> nonneg_op o -> AM s -> grew s s' r.
Proof.
  intros z o r s s' H N. induction H as [s|l s s1 s2 (L & NC) G H G1 R IH]; intros A; [split; auto; left; lra|].
  eapply grew_trans; [|apply IH; eapply AM_step; eauto].
  destruct (claimed_step _ _ _ r H NC (labs_nonneg _ _ _ _ _ L N H (am_cl _ A)) G (am_cl _ A) (am_ti _ A)) as (E & K & _).
  split; auto. destruct K as [K|[K|K]]; auto. right; left; lra.
Qed.
Lemma cap_path : forall n x s r cap s', GI none s -> exec n (OSetCap r cap) s = (s', x) ->
  exists s1, lstep (LCap r cap) s s1 /\ GI none s1 /\ rpath (fun l => labs s (OSetCap r cap) l /\ not_cap l) s1 s'.
Proof.
  intros n x s r cap s' G E. cbn [exec] in E.
  assert (K : wp (set_cap n r cap) (fun _ s' => exists s1, lstep (LCap r cap) s s1 /\ GI none s1 /\ rpath (fun l => labs s (OSetCap r cap) l /\ not_cap l) s1 s')
     (fun _ s' => exists s1, lstep (LCap r cap) s s1 /\ GI none s1 /\ rpath (fun l => labs s (OSetCap r cap) l /\ not_cap l) s1 s') s).
  { unfold set_cap. apply wp_bind, wp_setr, wp_bind, wp_setr. match goal with |- wp _ _ _ ?z => set (s1 := z) end.
    assert (ER : rset s r (cap_after cap (rsc s r)) s1).
    { split; [destruct s; reflexivity|]. intros y. unfold s1. rewrite !rsc_m_rsc, !Nat.eqb_refl. destruct (Nat.eqb y r); reflexivity. }
    pose proof (rset_GI _ _ _ _ ER G) as G1.
    assert (F : frames (RP (fun l => labs s (OSetCap r cap) l /\ not_cap l)) (r_try n r)) by (apply rp_r_try; cbn; auto).
    specialize (F s1 G1). unfold wp. destruct (r_try n r s1) as [s2 [a|e]]; exists s1; (split; [exact ER|]; split; [exact G1|]; apply F). }
  unfold wp in K. rewrite E in K. destruct x; auto.
Qed.
Lemma not_cap_path : forall o s s', (forall r cap, o <> OSetCap r cap) -> rpath (labs s o) s s' -> rpath (fun l => labs s o l /\ not_cap l) s s'.
Proof. intros o s s' N. apply rpath_weak. intros l L. split; auto. destruct l; cbn in *; auto. eapply N; eauto. Qed.
(** after any call: a resource which is claimed more than before the call is claimed within its capacity (documented tolerance 1e-8) *)
Theorem C13_within_after_call : forall s o s' r, reachable s -> call s o s' -> nonneg_op o ->
  r_claimed (rsc s r) < r_claimed (rsc s' r) -> 0 < r_claimed (rsc s' r) -> within s' r.
Proof.
  intros s o s' r R C N LT PO. pose proof (reach_AM _ _ R) as A.
  assert (OS : (exists x cap, o = OSetCap x cap) \/ forall x cap, o <> OSetCap x cap) by (destruct o; eauto; right; discriminate).
  destruct OS as [(x & cap & ->)|OS].
  - pose proof (qi_g _ (reach_p_QI _ _ R)) as G. destruct C as (_ & n & y & E & _). destruct (cap_path _ _ _ _ _ _ G E) as (s1 & L & G1 & PA).
    destruct (path_grew _ _ r _ _ PA N (AM_step _ _ _ L G A)) as (_ & [K|[K|K]]); auto; [|lra].
    destruct L as (_ & L). rewrite L in K. destruct (Nat.eqb_spec r x) as [->|]; cbn in K; lra.
  - destruct (path_grew _ _ r _ _ (not_cap_path _ _ _ OS (call_path _ _ _ _ R C)) N A) as (_ & [K|[K|K]]); auto; lra.
Qed.
(** a capacity is never lowered, nothing negative is released *)
Definition orderly (s : env) (o : op) : Prop :=
  nonneg_op o /\ forall r cap, o = OSetCap r cap -> xle (r_cap (rsc s r)) cap.
Definition bounds (s : env) (r : nat) : Prop :=
  within s r /\ - eps <= r_claimed (rsc s r) /\ (r_anon (rsc s r) = false -> 0 <= r_claimed (rsc s r)).
Definition B0 (r : nat) (s : env) : Prop := AM s /\ xle (Fin 0) (r_cap (rsc s r)) /\ within s r /\ - eps <= r_claimed (rsc s r).
Lemma B0_path : forall z o r s s', rpath (fun l => labs z o l /\ not_cap l) s s' -> nonneg_op o -> B0 r s -> B0 r s'.
Proof.
  intros z o r s s' H N. induction H as [s|l s s1 s2 (L & NC) G H G1 R IH]; intros (A & B1 & B2 & B3); [exact (conj A (conj B1 (conj B2 B3)))|].
  apply IH. pose proof (AM_step _ _ _ H G A) as A1.
  destruct (claimed_step _ _ _ r H NC (labs_nonneg _ _ _ _ _ L N H (am_cl _ A)) G (am_cl _ A) (am_ti _ A)) as (E & K1 & K2).
  split; auto. rewrite E. split; auto. split.
  - unfold within in *. rewrite E. destruct K1 as [K|[K|K]].
    + destruct (r_cap (rsc s r)); cbn in *; auto. lra.
    + destruct (r_cap (rsc s r)); cbn in *; auto. unfold eps. lra.
    + unfold fits in K. rewrite E in K. auto.
  - destruct K2 as [K|[K|K]]; auto; [lra|]. assert (AN : r_anon (rsc s1 r) = false) by (rewrite (kind_anon _ _ (lstep_kind _ _ _ r H)); auto).
    pose proof (ti_le _ (am_ti _ A1) r AN) as T. pose proof (total_nonneg _ r (am_cl _ A1)) as P. unfold eps. lra.
Qed.
Theorem C13_never_exceeded : forall t0 R sv kc hp y d s r, fresh R -> xle (Fin 0) (r_cap (R r)) -> xle (Fin (r_claimed (R r))) (r_cap (R r)) -> 0 <= r_claimed (R r) ->
  runs_p orderly (init t0 R sv kc hp y d) s -> bounds s r.
Proof.
  intros t0 R sv kc hp y d s r F P0 P1 P2 H.
  assert (B : B0 r s).
  { apply (inv_runs orderly (B0 r)) with (s := init t0 R sv kc hp y d); auto; [|apply QI_init|].
    - intros s1 o n s2 x Q (N & O) W E C (A & B1 & B2 & B3).
      assert (OS : (exists x cap, o = OSetCap x cap) \/ forall x cap, o <> OSetCap x cap) by (destruct o; eauto; right; discriminate).
      assert (CA : rpath (labs s1 o) s1 s2) by (eapply exec_path; eauto).
      destruct OS as [(x0 & cap & ->)|OS]; [|apply (B0_path s1 o r s1); auto; [apply not_cap_path; auto | exact (conj A (conj B1 (conj B2 B3)))]].
      destruct (cap_path _ _ _ _ _ _ (qi_g _ Q) E) as (s3 & L & G3 & PA). apply (B0_path _ _ r _ _ PA N). split; [eapply AM_step; eauto; apply (qi_g _ Q)|].
      destruct L as (_ & L). rewrite L. specialize (O x0 cap eq_refl). destruct (Nat.eqb_spec r x0) as [->|D].
      + unfold within in *. rewrite L, Nat.eqb_refl. cbn [r_cap r_claimed cap_after]. split; [apply (xle_trans _ _ _ B1 O)|]. split; auto.
        destruct (r_cap (rsc s1 x0)), cap; cbn in *; auto; try lra; contradiction.
      + split; auto. split; auto. unfold within in *. rewrite L. destruct (Nat.eqb_spec r x0); [contradiction|auto].
    - split; [apply AM_init; auto|]. cbn. split; auto. split; [|unfold eps; lra]. unfold within. cbn. destruct (r_cap (R r)); cbn in *; auto. unfold eps. lra. }
  destruct B as (A & B1 & B2 & B3). split; auto. split; auto. intros AN.
  pose proof (ti_le _ (am_ti _ A) r AN) as T. pose proof (total_nonneg _ r (am_cl _ A)) as P. lra.
Qed.
(** the hypotheses are met, and the claimed quantity does grow in the run of the examples: 0 goes from 3 to 5 of 5 *)
Definition orderlyb (s : env) (o : op) : bool :=
  match o with
  | ORelease c args => forallb (fun a => match snd a with Some q => Qle_bool 0 q | None => true end) args
  | OResRelease r (Some q) => Qle_bool 0 q
  | OSetCap r cap => xleb (r_cap (rsc s r)) cap
  | _ => true
  end.
Lemma orderlyb_ok : forall s o, orderlyb s o = true -> orderly s o.
Proof.
  intros s o H. split.
  - destruct o; cbn in *; auto.
    + intros r q I. rewrite forallb_forall in H. specialize (H _ I). cbn in H. apply Qle_bool_iff; auto.
    + destruct q; auto. apply Qle_bool_iff; auto.
  - intros r cap ->. cbn in H. apply xleb_iff; auto.
Qed.
Example C13_case : let s := stp orderlyb envr busy in let o := ORelease 1 [(0%nat, Some (1 # 2))] in
  runs_p orderly envr s /\ bounds s 0 /\ r_claimed (rsc s 0) == 5 /\ r_cap (rsc s 0) = Fin 5 /\ c_status (comps s 2) = Requesting /\ call s o (fst (exec 19 o s)).
Proof.
  intros s o. assert (R : runs_p orderly envr s).
  { unfold s, stp. destruct (script_p orderlyb 19 busy envr) eqn:E; [|vm_compute in E; discriminate]. eapply script_p_runs; eauto. apply orderlyb_ok. }
  split; auto. split; [|repeat split; try (vm_compute; reflexivity); apply (call_ok o s); vm_compute; reflexivity].
  unfold envr in R. eapply C13_never_exceeded; [apply rs0_fresh | | | | exact R]; cbn; auto; lra.
Qed.
(** without the condition on what is released the bound does not hold: releasing a negative quantity adds to the claim *)
Theorem C13_negative_release_refuted : exists s o s' r, reachable s /\ call s o s' /\ o = ORelease 1 [(r, Some (-(4)))] /\ within s r /\ ~ within s' r.
Proof.
  set (o := ORelease 1 [(0%nat, Some (-(4)))]). exists (stp any envr busy), o, (fst (exec 19 o (stp any envr busy))), 0%nat.
  split; [apply stp_reach with (P := fun _ _ => True); auto using rs0_fresh; vm_compute; reflexivity|].
  split; [apply call_ok; vm_compute; reflexivity|]. split; [reflexivity|].
  split; [apply xleb_iff; vm_compute; reflexivity|]. unfold within. intros H. apply xleb_iff in H. vm_compute in H. discriminate.
Qed.

(** ** C14 *)
(** [total s r] is the sum over the claimers of r of what they claim; everybody else claims nothing: *)
Theorem C14_claimers : forall s r c, reachable s ->
  (In c (map fst (qs s (QClaim r))) <-> exists v, alookup r (c_claims (comps s c)) = Some v) /\ NoDup (map fst (qs s (QClaim r))) /\
  (~ In c (map fst (qs s (QClaim r))) -> claim_of s r c = 0) /\ (r_anon (rsc s r) = true -> qs s (QClaim r) = []).
Proof.
  intros s r c R. pose proof (qi_g _ (reach_p_QI _ _ R)) as G. pose proof (reach_AM _ _ R) as A.
  assert (K : forall d, In d (map fst (qs s (QClaim r))) <-> exists v, alookup r (c_claims (comps s d)) = Some v).
  { intros d. pose proof (GI_keys s d r G) as K. unfold mem in K. rewrite K. destruct (alookup r (c_claims (comps s d))); split; try congruence; eauto. intros (v & E). discriminate. }
  split; auto. split; [apply (gi_nd _ _ G (QClaim r))|]. split.
  - intros N. unfold claim_of. destruct (alookup r (c_claims (comps s c))) eqn:E; auto. destruct N. apply K; eauto.
  - intros AN. destruct (qs s (QClaim r)) as [|(d, p) t] eqn:E; auto. exfalso. destruct (proj1 (K d)) as (v & V); [cbn; auto|].
    destruct (cl_pos _ (am_cl _ A) _ _ _ V). congruence.
Qed.
(** all quantities asked and given back are multiples of some unit that is at least the tolerance *)
Definition unit_op (u : Q) (o : op) : Prop :=
  match o with
  | ORequest c args _ _ _ _ _ => forall r q p, In (r, q, p) args -> multiple u q
  | ORelease c args => forall r q, In (r, Some q) args -> multiple u q
  | _ => True
  end.
Lemma labs_unit : forall u z o l s, labs z o l -> unit_op u o -> DI u s -> unit_lab u l.
Proof.
  intros u z o l s L U D. destruct l; cbn in *; auto.
  - destruct L as (args & one & f & p & ur & cap & pr & -> & I). eapply U; eauto.
  - destruct b; [destruct L as (-> & _); auto|]. destruct L as (_ & [->|(args & x & -> & I & ->)]); auto. unfold taken_back. destruct x as [x|]; auto. destruct (Qltb v x); auto. right. eapply U; eauto.
Qed.
Theorem C14_sum : forall u s r, eps <= u -> reach_p (fun _ o => unit_op u o) s -> r_anon (rsc s r) = false -> r_claimed (rsc s r) == total s r.
Proof.
  intros u s r U R AN. symmetry. revert r AN. fold (exact s). destruct R as (t0 & R & sv & kc & hp & y & d & F & H).
  assert (K : AM s /\ DI u s /\ exact s); [|apply K].
  apply (inv_runs (fun _ o => unit_op u o) (fun s => AM s /\ DI u s /\ exact s)) with (s := init t0 R sv kc hp y d); auto; [|apply QI_init|].
  - intros s1 o n s2 x Q UO W E C I. apply (inv_path (labs s1 o) (fun s => AM s /\ DI u s /\ exact s)) with (s := s1); auto; [|eapply exec_path; eauto].
    intros l a b L S G G' (A & D & X). pose proof (labs_unit _ _ _ _ _ L UO D) as UL.
    split; [eapply AM_step; eauto|]. split; [eapply DI_step; eauto|].
    eapply exact_step; eauto; [|apply A|apply A]. eapply DI_noresidue; eauto.
  - split; [apply AM_init; auto|]. split.
    + split; intros c r q; destruct (comps_init t0 R sv kc hp y d c) as (b & st & ->); cbn; discriminate.
    + intros r AN. cbn in *. destruct (fresh_at R r F) as (_ & -> & _); auto. cbn. lra.
Qed.
(** the same for arbitrary quantities if claims are always given back as a whole *)
Definition whole_op (o : op) : Prop := match o with ORelease c args => forall r q, ~ In (r, Some q) args | _ => True end.
Theorem C14_sum_whole : forall s r, reach_p (fun _ o => whole_op o) s -> r_anon (rsc s r) = false -> r_claimed (rsc s r) == total s r.
Proof.
  intros s r R AN. symmetry. revert r AN. fold (exact s). destruct R as (t0 & R & sv & kc & hp & y & d & F & H).
  assert (K : AM s /\ exact s); [|apply K].
  apply (inv_runs (fun _ o => whole_op o) (fun s => AM s /\ exact s)) with (s := init t0 R sv kc hp y d); auto; [|apply QI_init|].
  - intros s1 o n s2 x Q UO W E C I. apply (inv_path (labs s1 o) (fun s => AM s /\ exact s)) with (s := s1); auto; [|eapply exec_path; eauto].
    intros l a b L S G G' (A & X). split; [eapply AM_step; eauto|]. eapply exact_step; eauto; [|apply A|apply A].
    destruct l; cbn in *; auto. intros _. destruct b0; [destruct L as (-> & _); lra|]. destruct L as (_ & [->|(args & z & -> & I' & ->)]); [lra|]. destruct z as [z|]; cbn; [|lra]. exfalso. eapply UO; eauto.
  - split; [apply AM_init; auto|]. intros r AN. cbn in *. destruct (fresh_at R r F) as (_ & -> & _); auto. cbn. lra.
Qed.
(** whatever is asked and given back: the claimed quantity is never less than the sum of the claims, and 0 if there are no claimers *)
Theorem C14_sum_partial : forall s r, reachable s -> r_anon (rsc s r) = false ->
  total s r <= r_claimed (rsc s r) /\ (qs s (QClaim r) = [] -> r_claimed (rsc s r) == 0).
Proof. intros s r R AN. destruct (am_ti _ (reach_AM _ _ R)) as (A & B). auto. Qed.
(** missing: equality. It fails by less than 1e-8 per release: a claim of less than 1e-8 is dropped without subtracting it *)
Definition two_claims : list op :=
  [mk 1; mk 2; go; OStep; req 1 [(0%nat, 1, Fin 0)]; OStep; req 2 [(0%nat, 1, Fin 0)]; OStep; ORelease 1 [(0%nat, Some (1 - (1 # 200000000)))]].
Theorem C14_sum_refuted : exists s r, reachable s /\ r_anon (rsc s r) = false /\ total s r < r_claimed (rsc s r).
Proof.
  exists (stp any envr two_claims), 0%nat. split; [apply stp_reach with (P := fun _ _ => True); auto using rs0_fresh; vm_compute; reflexivity|].
  split; [vm_compute; reflexivity|]. vm_compute. reflexivity.
Qed.
(** the monitors: capacity, claimed quantity, available quantity *)
Theorem C14_monitors : forall s r, reachable s ->
  r_mcap (rsc s r) = r_cap (rsc s r) /\ r_mclaimed (rsc s r) = r_claimed (rsc s r) /\
  r_mavail (rsc s r) = xsubq (r_cap (rsc s r)) (r_claimed (rsc s r)).
Proof. intros s r R. exact (am_mon _ (reach_AM _ _ R) r). Qed.
(** occupancy = claimed / capacity, 0 for capacity 0 or inf; [0 < k] is the code's "capacity > 0" *)
Definition occupancy_right (s : env) (r : nat) : Prop :=
  match r_cap (rsc s r) with
  | PInf => r_mocc (rsc s r) == 0
  | Fin k => (0 < k -> r_mocc (rsc s r) * k == r_claimed (rsc s r)) /\ (k <= 0 -> r_mocc (rsc s r) == 0)
  end.
Lemma mon_occ_right : forall s r, mon_occ (rsc s r) -> occupancy_right s r.
Proof.
  intros s r M. unfold mon_occ in M. unfold occupancy_right. destruct (r_cap (rsc s r)) as [k|]; auto.
  destruct (Qle_bool k 0) eqn:E.
  - apply Qle_bool_iff in E. split; auto. intros; lra.
  - assert (0 < k) by (apply Qnot_le_lt; intros K; apply Qle_bool_iff in K; congruence). split; [|intros; lra]. intros _. rewrite M. field. lra.
Qed.
(** from the start if nothing is in use initially *)
Theorem C14_occupancy : forall t0 R sv kc hp y d s r, fresh R -> r_claimed (R r) == 0 -> runs_p (fun _ _ => True) (init t0 R sv kc hp y d) s -> occupancy_right s r.
Proof.
  intros t0 R sv kc hp y d s r F Z H. apply mon_occ_right.
  assert (K : mon3 (rsc s r) /\ mon_occ (rsc s r)); [|apply K].
  apply (inv_runs (fun _ _ => True) (fun s => mon3 (rsc s r) /\ mon_occ (rsc s r))) with (s := init t0 R sv kc hp y d); auto; [|apply QI_init|].
  - intros s1 o n s2 x Q _ W E C I. apply (inv_path (labs s1 o) (fun s => mon3 (rsc s r) /\ mon_occ (rsc s r))) with (s := s1); auto; [|eapply exec_path; eauto].
    intros l a b L S G G' (A & B). destruct (mon_step _ _ _ r S A). auto.
  - cbn. destruct (fresh_at R r F) as (M3 & _ & MO & _). split; auto. unfold mon_occ. rewrite MO. destruct (r_cap (R r)) as [k|]; [|lra].
    destruct (Qle_bool k 0) eqn:E; [lra|]. rewrite Z. unfold Qdiv. ring.
Qed.
Lemma occ_step : forall l s s' r, lstep l s s' -> r_mcap (rsc s r) = r_cap (rsc s r) ->
  mon_occ (rsc s' r) \/ (r_mocc (rsc s' r) = r_mocc (rsc s r) /\ r_claimed (rsc s' r) = r_claimed (rsc s r) /\ r_cap (rsc s' r) = r_cap (rsc s r)).
Proof.
  intros l s s' r H MC. destruct l; cbn in H.
  - right. destruct (plain_claimed _ _ (qt_rsc _ _ H r)) as (A & B & _ & _ & C & _). auto.
  - right. assert (E : rsc s' = rsc s) by (destruct H as (_ & [(_ & ->)|(_ & p & ->)]); auto). rewrite E. auto.
  - destruct H as (_ & _ & H). pose proof (grant_rsc _ _ _ r H) as P. pose proof (plain_mon _ _ P) as (_ & PM). apply plain_claimed in P. destruct P as (A & B & _ & _ & C & _).
    destruct (alookup r (c_requests (comps s c))); [destruct (memb r (grant s c))|]; auto. left. apply PM. apply (tally_mon _ _ MC).
  - destruct H as (_ & _ & _ & H). rewrite (gv_rsc _ _ _ _ _ _ H). destruct (Nat.eqb_spec r r0) as [->|]; auto. left. apply (tally_mon _ _ MC).
  - destruct H as (_ & _ & H). rewrite H. destruct (Nat.eqb_spec r r0) as [->|]; auto. left. apply (tally_mon _ _ MC).
  - destruct H as (_ & H). rewrite H. destruct (Nat.eqb_spec r r0) as [->|]; auto. left. unfold mon_occ. cbn. unfold occ. lra.
Qed.
(** and after every change of the claimed quantity or the capacity *)
Theorem C14_occupancy_after : forall s o s' r, reachable s -> call s o s' -> occupancy_right s r \/ r_mclaimed (rsc s' r) <> r_mclaimed (rsc s r) \/ r_mcap (rsc s' r) <> r_mcap (rsc s r) ->
  occupancy_right s' r.
Proof.
  intros s o s' r R C H. pose proof (call_path _ _ _ _ R C) as P.
  assert (K : forall a b, rpath (labs s o) a b -> AM a -> mon_occ (rsc b r) \/ (r_mocc (rsc b r) = r_mocc (rsc a r) /\ r_claimed (rsc b r) = r_claimed (rsc a r) /\ r_cap (rsc b r) = r_cap (rsc a r))).
  { induction 1 as [a|l a b c L G S G' RP IH]; intros A; auto. specialize (IH (AM_step _ _ _ S G A)).
    assert (J : mon_occ (rsc b r) \/ (r_mocc (rsc b r) = r_mocc (rsc a r) /\ r_claimed (rsc b r) = r_claimed (rsc a r) /\ r_cap (rsc b r) = r_cap (rsc a r))).
    { destruct (occ_step _ _ _ r S (proj1 (am_mon _ A r))) as [J|J]; auto. }
    destruct IH as [IH|(I1 & I2 & I3)]; auto. destruct J as [J|(J1 & J2 & J3)]; [|right; split; [congruence|split; congruence]].
    left. unfold mon_occ in *. rewrite I1, I2, I3. auto. }
  pose proof (reach_AM _ _ R) as A. pose proof (am_mon _ A r) as (M1 & M2 & _). pose proof (am_mon _ (AM_path _ _ _ P A) r) as (M1' & M2' & _).
  destruct (K _ _ P A) as [J|(J1 & J2 & J3)]; [apply mon_occ_right; auto|].
  destruct H as [H|[H|H]]; [|destruct H; congruence|destruct H; congruence]. unfold occupancy_right in *. rewrite J1, J2, J3. auto.
Qed.
(** missing: a resource that starts with a claimed quantity shows occupancy 0 until the first change *)
Theorem C14_occupancy_refuted : exists s r, reachable s /\ ~ occupancy_right s r.
Proof.
  exists envr, 1%nat. split; [exists 0, rs0; do 5 eexists; split; [apply rs0_fresh | constructor]|].
  unfold occupancy_right. cbn. intros (H & _). assert (0 < 4) by lra. specialize (H H0). lra.
Qed.
Definition unitb (s : env) (o : op) : bool :=
  match o with
  | ORequest c args _ _ _ _ _ => forallb (fun a => (Qden (Qred (snd (fst a) * 2)) =? 1)%positive) args
  | ORelease c args => forallb (fun a => match snd a with Some q => (Qden (Qred (q * 2)) =? 1)%positive | None => true end) args
  | _ => true
  end.
Lemma half : forall q, (Qden (Qred (q * 2)) =? 1)%positive = true -> multiple (1 # 2) q.
Proof.
  intros q H. apply Pos.eqb_eq in H. exists (Qnum (Qred (q * 2))).
  assert (E : inject_Z (Qnum (Qred (q * 2))) == q * 2). { transitivity (Qred (q * 2)); [|apply Qred_correct]. destruct (Qred (q * 2)) as [a b]. cbn in *. subst b. reflexivity. }
  rewrite E. field.
Qed.
Lemma unitb_ok : forall s o, unitb s o = true -> unit_op (1 # 2) o.
Proof.
  intros s o H. destruct o; cbn in *; auto.
  - intros r q p I. rewrite forallb_forall in H. specialize (H _ I). apply half; auto.
  - intros r q I. rewrite forallb_forall in H. specialize (H _ I). apply half; auto.
Qed.
(** 1 gives back 1/2 of its 3, 2 is still waiting, 4 gets the 1/2 *)
Definition halves : list op := busy ++ [OStep; ORelease 1 [(0%nat, Some (1 # 2))]; req 4 [(0%nat, 1 # 2, Fin 0)]].
Example C14_case : let s := stp unitb envr halves in
  reach_p (fun _ o => unit_op (1 # 2) o) s /\ r_claimed (rsc s 0) == 5 /\ total s 0 == 5 /\ length (qs s (QClaim 0)) = 3%nat /\
  claim_of s 0 1 == 5 # 2 /\ claim_of s 0 3 == 2 /\ claim_of s 0 4 == 1 # 2 /\ r_mocc (rsc s 0) == 1 /\ xeqb (r_mavail (rsc s 0)) (Fin 0) = true.
Proof.
  intros s. split; [apply stp_reach; [apply unitb_ok | apply rs0_fresh | vm_compute; reflexivity]|].
  repeat split; vm_compute; reflexivity.
Qed.
Print Assumptions C13_within_after_call. Print Assumptions C13_never_exceeded. Print Assumptions C13_negative_release_refuted.
Print Assumptions C14_claimers. Print Assumptions C14_sum. Print Assumptions C14_sum_whole. Print Assumptions C14_sum_partial. Print Assumptions C14_sum_refuted.
Print Assumptions C14_monitors. Print Assumptions C14_occupancy. Print Assumptions C14_occupancy_after. Print Assumptions C14_occupancy_refuted.
