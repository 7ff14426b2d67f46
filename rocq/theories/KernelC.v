(** Amounts: the claimed quantity of a resource against the claims of the components. *)
From Coq Require Import QArith Lqa List Bool Arith ZArith Lia.
From Verif Require Import Base Kernel Wp KernelE KernelL KernelX KernelT KernelU KernelR KernelQ KernelA KernelB.
Import ListNotations.
Open Scope Q_scope.
Local Arguments keys : simpl never.

(** ** Sums over a queue *)
Fixpoint tot (f : nat -> Q) (l : list (nat * xq)) : Q := match l with [] => 0 | p :: t => f (fst p) + tot f t end.
Lemma tot_ext : forall f g l, (forall c, In c (map fst l) -> f c == g c) -> tot f l == tot g l.
Proof.
  induction l as [|(c, p) t IH]; intros H; cbn; [lra|]. cbn in H. rewrite IH by (intros; apply H; auto). rewrite (H c) by auto. lra.
Qed.
Lemma tot_ins_tail : forall f c p l, tot f (ins_tail c p l) == f c + tot f l.
Proof.
  induction l as [|y t IH]; cbn [ins_tail]; [cbn; lra|]. destruct (forallb _ _); cbn; [lra|]. rewrite IH. lra.
Qed.
Lemma tot_ins_sorted : forall f c p l, tot f (ins_sorted c p l) == f c + tot f l.
Proof.
  intros f c p l. unfold ins_sorted. destruct l as [|y t]; [cbn; lra|]. destruct (xltb p (snd y)); [cbn; lra | apply tot_ins_tail].
Qed.
Lemma adel_notin : forall A c (l : list (nat * A)), ~ In c (map fst l) -> adel c l = l.
Proof.
  induction l as [|(x, y) t IH]; intros N; cbn; auto. cbn in N. destruct (Nat.eqb_spec c x); [subst; tauto|]. cbn. f_equal. apply IH. tauto.
Qed.
Lemma tot_adel : forall f c l, NoDup (map fst l) -> In c (map fst l) -> tot f (adel c l) == tot f l - f c.
Proof.
  induction l as [|(x, y) t IH]; intros N I; [destruct I|]. cbn in N. inversion N as [|? ? N1 N2]; subst.
  unfold adel in *. cbn [filter fst]. destruct (Nat.eqb_spec c x) as [->|D]; cbn [negb].
  - fold (adel x t). rewrite adel_notin by auto. cbn. lra.
  - destruct I as [E|I]; [cbn in E; congruence|]. cbn. rewrite IH by auto. lra.
Qed.
Lemma tot_add : forall f g c d l, NoDup (map fst l) -> In c (map fst l) -> g c == f c + d -> (forall x, x <> c -> g x == f x) -> tot g l == tot f l + d.
Proof.
  induction l as [|(x, y) t IH]; intros N I E H; [destruct I|]. cbn in N. inversion N as [|? ? N1 N2]; subst. cbn.
  destruct (Nat.eq_dec x c) as [->|D].
  - rewrite E. rewrite (tot_ext g f t); [lra|]. intros z Z. apply H. congruence.
  - destruct I as [K|I]; [cbn in K; congruence|]. rewrite IH; auto. rewrite (H x) by auto. lra.
Qed.
Lemma tot_nonneg : forall f l, (forall c, In c (map fst l) -> 0 <= f c) -> 0 <= tot f l.
Proof. induction l as [|(c, p) t IH]; intros H; cbn; [lra|]. cbn in H. specialize (IH (fun x I => H x (or_intror I))). specialize (H c (or_introl eq_refl)). lra. Qed.

(** the quantity of r claimed by c: Component.claimed_quantity *)
Definition claim_of (s : env) (r c : nat) : Q := match alookup r (c_claims (comps s c)) with Some v => v | None => 0 end.
Definition total (s : env) (r : nat) : Q := tot (claim_of s r) (qs s (QClaim r)).

(** ** What never changes; what a change does to claimed quantity and capacity *)
Definition kind (x : resource) := (r_anon x, r_preempt x, r_hfirst x, r_hprio x).
Lemma plain_kind : forall x y, plain x = plain y -> kind x = kind y.
Proof. intros [] [] E. injection E. intros. unfold kind; cbn; congruence. Qed.
Lemma plain_claimed : forall x y, plain x = plain y -> r_claimed x = r_claimed y /\ r_cap x = r_cap y /\ r_mclaimed x = r_mclaimed y /\
  r_mavail x = r_mavail y /\ r_mocc x = r_mocc y /\ r_mcap x = r_mcap y.
Proof. intros [] [] E. injection E. intros. cbn; repeat split; congruence. Qed.
Lemma grant_rsc : forall s c s' r, granted s c s' -> plain (rsc s' r) = plain (match alookup r (c_requests (comps s c)) with
   | Some q => if memb r (grant s c) then r_tally (w_claimed (r_claimed (rsc s r) + q) (rsc s r)) else rsc s r | None => rsc s r end).
Proof.
  intros s c s' r (s1 & T & ->). change (rsc (m_comp c (w_requests []) s1) r) with (rsc s1 r). rewrite (tk_rsc _ _ _ _ _ T).
  destruct (alookup r (c_requests (comps s c))); auto. destruct (nonnil (qs s1 (QReq r))); auto.
Qed.
Lemma grant_can : forall s c r q, GI none s -> In r (grant s c) -> alookup r (c_requests (comps s c)) = Some q -> can_one s c r q = true.
Proof.
  intros s c r q G I A. unfold grant in I. destruct (gi_ks _ _ G c) as (ND & _). destruct (c_oneof (comps s c)).
  - destruct (find _ _) as [(r', q')|] eqn:F; [|destruct I]. destruct I as [<-|[]]. apply find_some in F. destruct F as (F1 & F2). cbn in F2.
    cbn [fst] in *. rewrite (In_alookup _ _ _ _ ND F1) in A. injection A as <-. auto.
  - destruct (forallb _ _) eqn:F; [|destruct I]. rewrite forallb_forall in F. apply (F (r, q)). apply alookup_In; auto.
Qed.
Lemma lstep_kind : forall l s s' r, lstep l s s' -> kind (rsc s' r) = kind (rsc s r).
Proof.
  intros l s s' r H. destruct l; cbn in H.
  - apply plain_kind, (qt_rsc _ _ H).
  - destruct H as (_ & [(_ & ->)|(_ & p & ->)]); reflexivity.
  - destruct H as (_ & _ & H). apply (grant_rsc _ _ _ r) in H. apply plain_kind in H. rewrite H.
    destruct (alookup r (c_requests (comps s c))); auto. destruct (memb r (grant s c)); reflexivity.
  - destruct H as (_ & _ & _ & H). rewrite (gv_rsc _ _ _ _ _ _ H). destruct (Nat.eqb_spec r r0) as [->|]; reflexivity.
  - destruct H as (_ & _ & H). rewrite H. destruct (Nat.eqb_spec r r0) as [->|]; reflexivity.
  - destruct H as (_ & H). rewrite H. destruct (Nat.eqb_spec r r0) as [->|]; reflexivity.
Qed.
Lemma kind_anon : forall x y, kind x = kind y -> r_anon x = r_anon y. Proof. intros x y E. injection E. auto. Qed.

(** ** claims are not negative and only for non-anonymous resources *)
Record CL (s : env) : Prop := {
  cl_pos : forall c r v, alookup r (c_claims (comps s c)) = Some v -> 0 <= v /\ r_anon (rsc s r) = false;
  cl_req : forall c r q, alookup r (c_requests (comps s c)) = Some q -> r_anon (rsc s r) = false -> 0 <= q }.
Lemma CL_step : forall l s s', lstep l s s' -> CL s -> CL s'.
Proof.
  intros l s s' H C. assert (AN : forall r, r_anon (rsc s' r) = r_anon (rsc s r)) by (intros; eapply kind_anon, lstep_kind; eauto).
  destruct l; cbn in H.
  - constructor.
    + intros c r v. rewrite (qt_cl _ _ H), AN. apply (cl_pos _ C).
    + intros c r q A. rewrite AN. destruct (qt_rq _ _ H c) as [E|E]; rewrite E in A; [eapply cl_req; eauto | discriminate].
  - destruct H as (N & H). assert (E : comps s' = comps (asked s c r q)) by (destruct H as [(_ & ->)|(_ & p & ->)]; auto).
    constructor.
    + intros d x v. rewrite E, AN. unfold asked. destruct (Nat.eq_dec d c) as [->|D]; [rewrite comps_same | rewrite comps_diff by auto]; apply (cl_pos _ C).
    + intros d x v. rewrite E, AN. unfold asked. destruct (Nat.eq_dec d c) as [->|D]; [rewrite comps_same | rewrite comps_diff by auto; apply (cl_req _ C)].
      cbn [c_requests w_requests]. destruct (Nat.eq_dec x r) as [->|D]; [|rewrite alookup_aset_diff by auto; apply (cl_req _ C)].
      rewrite alookup_aset_same. intros F B. injection F as <-. assert (0 <= q). { destruct (Qltb q 0) eqn:L; [rewrite (N eq_refl) in B; discriminate|]. apply Qltb_false_iff in L. auto. }
      destruct (alookup r (c_requests (comps s c))) eqn:F; auto. apply (cl_req _ C) in F; auto. lra.
  - destruct H as (_ & _ & s1 & T & ->). destruct (tk_self _ _ _ _ _ T) as (cl & E & _ & L). constructor.
    + intros d x v. rewrite AN. destruct (Nat.eq_dec d c) as [->|D]; [rewrite comps_same | rewrite comps_diff by auto; rewrite (tk_oth _ _ _ _ _ T) by auto; apply (cl_pos _ C)].
      rewrite E. cbn [c_claims w_claims w_requests]. rewrite L.
      destruct (alookup x (c_requests (comps s c))) as [q|] eqn:Q; [|apply (cl_pos _ C)].
      destruct (memb x (grant s c) && negb (r_anon (rsc s x))) eqn:B; [|apply (cl_pos _ C)].
      apply andb_prop in B. destruct B as (_ & B). apply negb_true_iff in B. intros F. injection F as <-. split; auto.
      apply (cl_req _ C) in Q; auto. destruct (alookup x (c_claims (comps s c))) eqn:F; auto. apply (cl_pos _ C) in F. lra.
    + intros d x v. rewrite AN. destruct (Nat.eq_dec d c) as [->|D]; [rewrite comps_same; discriminate | rewrite comps_diff by auto; rewrite (tk_oth _ _ _ _ _ T) by auto; apply (cl_req _ C)].
  - destruct H as (A & LE & _ & H). destruct (gv_self _ _ _ _ _ _ H) as (cl & E & L). constructor.
    + intros d x w. rewrite AN. destruct (Nat.eq_dec d c) as [->|D]; [|rewrite (gv_oth _ _ _ _ _ _ H) by auto; apply (cl_pos _ C)].
      rewrite E. cbn [c_claims w_claims]. rewrite L. destruct (Nat.eqb_spec x r) as [->|D]; [|apply (cl_pos _ C)].
      destruct (full v q0); [discriminate|]. intros F. injection F as <-. apply (cl_pos _ C) in A. split; [lra | tauto].
    + intros d x w. rewrite AN. destruct (Nat.eq_dec d c) as [->|D]; [rewrite E | rewrite (gv_oth _ _ _ _ _ _ H) by auto]; apply (cl_req _ C).
  - destruct H as (_ & E & _). constructor; intros d x w; rewrite AN, E; apply C.
  - destruct H as (E & _). constructor; intros d x w; rewrite AN, E; apply C.
Qed.

(** ** the sum of the claims *)
Record TI (s : env) : Prop := {
  ti_le : forall r, r_anon (rsc s r) = false -> total s r <= r_claimed (rsc s r);
  ti_0 : forall r, r_anon (rsc s r) = false -> qs s (QClaim r) = [] -> r_claimed (rsc s r) == 0 }.
Definition exact (s : env) : Prop := forall r, r_anon (rsc s r) = false -> total s r == r_claimed (rsc s r).
(** how claimed and the sum of the claims change *)
Lemma total_same : forall s s' r, qs s' (QClaim r) = qs s (QClaim r) -> (forall c, c_claims (comps s' c) = c_claims (comps s c)) -> total s' r = total s r.
Proof.
  intros s s' r E F. unfold total. rewrite E. generalize (qs s (QClaim r)) as l. induction l as [|x t IH]; cbn; auto. rewrite IH. unfold claim_of. rewrite F. auto.
Qed.
Lemma total_grant : forall s c s' r, GI none s -> granted s c s' -> r_anon (rsc s r) = false ->
  total s' r - total s r == r_claimed (rsc s' r) - r_claimed (rsc s r) /\ (qs s' (QClaim r) = [] -> qs s (QClaim r) = [] /\ r_claimed (rsc s' r) = r_claimed (rsc s r)).
Proof.
  intros s c s' r G H AN. pose proof (grant_rsc _ _ _ r H) as R. apply plain_claimed in R. destruct R as (R & _).
  destruct H as (s1 & T & E). destruct (tk_self _ _ _ _ _ T) as (cl & E1 & _ & L).
  assert (QC : qs s' (QClaim r) = qs s1 (QClaim r)) by (rewrite E; auto). rewrite (tk_clm _ _ _ _ _ T) in QC.
  assert (OT : forall d, d <> c -> claim_of s' r d = claim_of s r d).
  { intros d D. unfold claim_of. rewrite E. rewrite comps_diff by auto. rewrite (tk_oth _ _ _ _ _ T) by auto. auto. }
  assert (SF : claim_of s' r c = match alookup r cl with Some v => v | None => 0 end).
  { unfold claim_of. rewrite E, comps_same, E1. auto. }
  specialize (L r). rewrite AN in *. cbn [negb] in *. rewrite andb_true_r in *.
  destruct (alookup r (c_requests (comps s c))) as [q|] eqn:Q; [destruct (memb r (grant s c)) eqn:B|].
  - assert (M : mem s (QReq r) c) by (apply GI_mem_req; auto; eapply alookup_Some_key; eauto).
    cbn [r_claimed r_tally w_claimed] in R. rewrite R. rewrite L in SF. split.
    + unfold total. rewrite QC. unfold newclaim. destruct (inq c (qs s (QClaim r))) eqn:I.
      * apply inq_iff in I. rewrite (tot_add (claim_of s r) (claim_of s' r) c q); [lra | apply (gi_nd _ _ G) | auto | | intros; rewrite OT; auto; lra].
        rewrite SF. unfold claim_of. apply (GI_keys s c r G) in I. destruct (alookup r (c_claims (comps s c))); [lra | congruence].
      * destruct (alookup_ex _ c (qs s (QReq r)) M) as (p & P). unfold qprio. rewrite P. rewrite tot_ins_sorted, SF.
        apply inq_false in I. rewrite (tot_ext (claim_of s' r) (claim_of s r) (qs s (QClaim r))).
        2:{ intros d D. rewrite OT; [lra | congruence]. }
        destruct (alookup r (c_claims (comps s c))) eqn:A; [|lra]. exfalso. apply I. apply (GI_keys s c r G). congruence.
    + intros F. exfalso. assert (K : In c (map fst (newclaim c r q s (qs s (QClaim r))))) by (apply in_newclaim; auto). rewrite <- QC, F in K. destruct K.
  - rewrite R, L in *. split; [|rewrite QC; auto]. unfold total. rewrite QC.
    rewrite (tot_ext (claim_of s' r) (claim_of s r)); [lra|]. intros d D. destruct (Nat.eq_dec d c) as [->|N]; [rewrite SF; unfold claim_of; lra | rewrite OT; auto; lra].
  - rewrite R, L in *. split; [|rewrite QC; auto]. unfold total. rewrite QC.
    rewrite (tot_ext (claim_of s' r) (claim_of s r)); [lra|]. intros d D. destruct (Nat.eq_dec d c) as [->|N]; [rewrite SF; unfold claim_of; lra | rewrite OT; auto; lra].
Qed.
Lemma total_gave : forall s c r v q0 s', GI none s -> alookup r (c_claims (comps s c)) = Some v -> gave s c r v q0 s' ->
  total s' r == total s r - (if full v q0 then v else q0).
Proof.
  intros s c r v q0 s' G A H. destruct (gv_self _ _ _ _ _ _ H) as (cl & E & L). specialize (L r). rewrite Nat.eqb_refl in L.
  assert (I : In c (map fst (qs s (QClaim r)))) by (apply (GI_keys s c r G); congruence).
  assert (OT : forall d, d <> c -> claim_of s' r d = claim_of s r d) by (intros d D; unfold claim_of; rewrite (gv_oth _ _ _ _ _ _ H) by auto; auto).
  assert (V : claim_of s r c = v) by (unfold claim_of; rewrite A; auto).
  unfold total. rewrite (gv_q _ _ _ _ _ _ H). cbn [qeqb]. rewrite Nat.eqb_refl. destruct (full v q0).
  - rewrite (tot_ext (claim_of s' r) (claim_of s r)), tot_adel, V; auto; [lra | apply (gi_nd _ _ G)|].
    intros d D. change (In d (keys (adel c (qs s (QClaim r))))) in D. apply keys_adel_in in D. rewrite OT by tauto. lra.
  - rewrite (tot_add (claim_of s r) (claim_of s' r) c (- q0)); auto; [lra | apply (gi_nd _ _ G) | | intros; rewrite OT; auto; lra].
    rewrite V. unfold claim_of. rewrite E. cbn [c_claims w_claims]. rewrite L. lra.
Qed.
Lemma gave_other : forall s c r v q0 s' x, gave s c r v q0 s' -> x <> r -> total s' x == total s x /\ qs s' (QClaim x) = qs s (QClaim x) /\ rsc s' x = rsc s x.
Proof.
  intros s c r v q0 s' x H D. destruct (gv_self _ _ _ _ _ _ H) as (cl & E & L). specialize (L x).
  assert (QC : qs s' (QClaim x) = qs s (QClaim x)).
  { rewrite (gv_q _ _ _ _ _ _ H). cbn [qeqb]. destruct (Nat.eqb_spec x r); [contradiction | auto]. }
  assert (RS : rsc s' x = rsc s x). { rewrite (gv_rsc _ _ _ _ _ _ H). destruct (Nat.eqb_spec x r); [contradiction | auto]. }
  destruct (Nat.eqb_spec x r); [contradiction|]. split; [|auto]. unfold total. rewrite QC. apply tot_ext. intros d _. unfold claim_of.
  destruct (Nat.eq_dec d c) as [->|N]; [rewrite E; cbn [c_claims w_claims]; rewrite L; lra | rewrite (gv_oth _ _ _ _ _ _ H) by auto; lra].
Qed.
(** other changes *)
Lemma lstep_other : forall l s s', lstep l s s' -> (match l with LGrant _ | LFree _ _ _ _ _ => False | _ => True end) ->
  forall r, r_anon (rsc s r) = false -> total s' r = total s r /\ qs s' (QClaim r) = qs s (QClaim r) /\ r_claimed (rsc s' r) = r_claimed (rsc s r).
Proof.
  intros l s s' H K r AN. destruct l; try tauto; cbn in H.
  - split; [|split].
    + apply total_same; [apply (qt_clm _ _ H) | apply (qt_cl _ _ H)].
    + apply (qt_clm _ _ H).
    + apply plain_claimed, (qt_rsc _ _ H).
  - assert (QC : forall x, qs s' (QClaim x) = qs s (QClaim x)) by (intros x; destruct H as (_ & [(_ & ->)|(_ & p & ->)]); reflexivity).
    split; [|split; [apply QC | destruct H as (_ & [(_ & ->)|(_ & p & ->)]); reflexivity]].
    apply total_same; auto. intros d. assert (E : comps s' = comps (asked s c r0 q)) by (destruct H as (_ & [(_ & ->)|(_ & p & ->)]); auto).
    rewrite E. unfold asked. destruct (Nat.eq_dec d c) as [->|]; [rewrite comps_same | rewrite comps_diff]; auto.
  - destruct H as (A & E & R). rewrite R. split; [|split; [rewrite E; auto|]].
    + apply total_same; rewrite E; auto.
    + destruct (Nat.eqb_spec r r0); [congruence | auto].
  - destruct H as (E & R). rewrite R. split; [|split; [rewrite E; auto|]].
    + apply total_same; rewrite E; auto.
    + destruct (Nat.eqb_spec r r0) as [->|]; reflexivity.
Qed.
Lemma nonnil_nil : forall A (l : list A), nonnil l = false -> l = []. Proof. intros A []; auto; discriminate. Qed.
Lemma total_nonneg : forall s r, CL s -> 0 <= total s r.
Proof.
  intros s r C. apply tot_nonneg. intros c _. unfold claim_of. destruct (alookup r (c_claims (comps s c))) eqn:E; [|lra]. apply (cl_pos _ C) in E. tauto.
Qed.
Lemma TI_step : forall l s s', lstep l s s' -> GI none s -> CL s -> TI s -> TI s'.
Proof.
  intros l s s' H G C T. assert (AN : forall r, r_anon (rsc s' r) = r_anon (rsc s r)) by (intros; eapply kind_anon, lstep_kind; eauto).
  assert (OT : (match l with LGrant _ | LFree _ _ _ _ _ => False | _ => True end) -> TI s').
  { intros K. constructor; intros r; rewrite AN; intros A; destruct (lstep_other _ _ _ H K r A) as (E1 & E2 & E3); rewrite ?E1, ?E2, ?E3; apply T; auto. }
  destruct l; try (apply OT; exact Logic.I); clear OT; cbn in H.
  - destruct H as (_ & _ & H). constructor; intros r; rewrite AN; intros A; destruct (total_grant _ _ _ r G H A) as (E1 & E2).
    + pose proof (ti_le _ T r A). lra.
    + intros F. destruct (E2 F) as (E3 & ->). apply T; auto.
  - destruct H as (A & LE & _ & H). pose proof (total_gave _ _ _ _ _ _ G A H) as TG. pose proof (cl_pos _ C _ _ _ A) as (V & AR).
    constructor; intros x; rewrite AN; intros Ax; (destruct (Nat.eq_dec x r) as [->|D]; [|destruct (gave_other _ _ _ _ _ _ x H D) as (E1 & E2 & E3); rewrite ?E1, ?E2, ?E3; apply T; auto]).
    + rewrite TG. rewrite (gv_rsc _ _ _ _ _ _ H), Nat.eqb_refl. cbn [r_claimed r_tally w_claimed]. pose proof (ti_le _ T r Ax).
      destruct (full v q0) eqn:F; cbn [andb]; [|lra]. destruct (nonnil (adel c (qs s (QClaim r)))) eqn:NN; cbn [negb].
      * unfold full in F. apply Qltb_iff in F. lra.
      * assert (I : In c (map fst (qs s (QClaim r)))) by (apply (GI_keys s c r G); congruence).
        assert (E : total s r - v == 0).
        { assert (K : tot (claim_of s r) (adel c (qs s (QClaim r))) == total s r - claim_of s r c) by (apply tot_adel; auto; apply (gi_nd _ _ G)).
          assert (W : claim_of s r c = v) by (unfold claim_of; rewrite A; auto).
          apply nonnil_nil in NN. rewrite NN in K. cbn [tot] in K. rewrite W in K. lra. }
        lra.
    + rewrite (gv_q _ _ _ _ _ _ H). cbn [qeqb]. rewrite Nat.eqb_refl. intros F. rewrite (gv_rsc _ _ _ _ _ _ H), Nat.eqb_refl. cbn [r_claimed r_tally w_claimed].
      destruct (full v q0); [rewrite F; cbn; lra|].
      exfalso. assert (I : In c (map fst (qs s (QClaim r)))) by (apply (GI_keys s c r G); congruence). rewrite F in I. destruct I.
Qed.
(** nothing gets lost if no residue is dropped *)
Definition noresidue (l : lab) : Prop := match l with LFree c r v q0 _ => full v q0 = true -> v == q0 | _ => True end.
Lemma exact_step : forall l s s', lstep l s s' -> noresidue l -> GI none s -> CL s -> TI s -> exact s -> exact s'.
Proof.
  intros l s s' H N G C T X r. rewrite (kind_anon _ _ (lstep_kind _ _ _ r H)). intros A.
  assert (OT : (match l with LGrant _ | LFree _ _ _ _ _ => False | _ => True end) -> total s' r == r_claimed (rsc s' r)).
  { intros K. destruct (lstep_other _ _ _ H K r A) as (E1 & E2 & E3). rewrite E1, E3. apply X; auto. }
  pose proof (TI_step _ _ _ H G C T) as T'.
  destruct l; try (apply OT; exact Logic.I); clear OT; cbn in H.
  - destruct H as (_ & _ & H). destruct (total_grant _ _ _ r G H A) as (E1 & E2). specialize (X r A). lra.
  - destruct H as (L & LE & _ & H). pose proof (total_gave _ _ _ _ _ _ G L H) as TG.
    destruct (Nat.eq_dec r r0) as [->|D]; [|destruct (gave_other _ _ _ _ _ _ r H D) as (E1 & E2 & E3); rewrite E1, E3; apply X; auto].
    specialize (X r0 A). pose proof TG as TG'. rewrite TG. rewrite (gv_rsc _ _ _ _ _ _ H), Nat.eqb_refl. cbn [r_claimed r_tally w_claimed]. cbn in N.
    destruct (full v q0) eqn:F; cbn [andb]; [|lra]. specialize (N eq_refl). destruct (nonnil (adel c (qs s (QClaim r0)))) eqn:NN; cbn [negb]; [lra|].
    assert (E : total s' r0 == 0). { unfold total. rewrite (gv_q _ _ _ _ _ _ H). cbn [qeqb]. rewrite Nat.eqb_refl, F. apply nonnil_nil in NN. rewrite NN. cbn. lra. }
    lra.
Qed.

(** ** multiples of a unit *)
Definition multiple (u q : Q) : Prop := exists z : Z, q == inject_Z z * u.
Lemma mult_add : forall u a b, multiple u a -> multiple u b -> multiple u (a + b).
Proof. intros u a b (x & X) (y & Y). exists (x + y)%Z. rewrite X, Y, inject_Z_plus. ring. Qed.
Lemma mult_sub : forall u a b, multiple u a -> multiple u b -> multiple u (a - b).
Proof. intros u a b (x & X) (y & Y). exists (x - y)%Z. rewrite X, Y. unfold Zminus. rewrite inject_Z_plus, inject_Z_opp. ring. Qed.
Lemma mult_small : forall u a, eps <= u -> multiple u a -> 0 <= a -> a < eps -> a == 0.
Proof.
  intros u a U (z & E) P L. assert (UP : 0 < u) by (unfold eps in *; lra). destruct (Z_lt_le_dec z 1) as [H|H].
  - destruct (Z.eq_dec z 0) as [->|N]; [rewrite E; ring|]. exfalso. assert (K : (z <= -1)%Z) by lia. rewrite Zle_Qle in K. 
    assert (inject_Z z * u <= (-1) * u) by (apply Qmult_le_compat_r; [exact K | lra]). lra.
  - exfalso. rewrite Zle_Qle in H. assert (1 * u <= inject_Z z * u) by (apply Qmult_le_compat_r; [exact H | lra]). lra.
Qed.
Definition DI (u : Q) (s : env) : Prop :=
  (forall c r v, alookup r (c_claims (comps s c)) = Some v -> multiple u v) /\ (forall c r q, alookup r (c_requests (comps s c)) = Some q -> multiple u q).
Definition unit_lab (u : Q) (l : lab) : Prop :=
  match l with LAsk c r q => multiple u q | LFree c r v q0 _ => q0 = v \/ multiple u q0 | _ => True end.
Lemma DI_step : forall u l s s', lstep l s s' -> unit_lab u l -> DI u s -> DI u s'.
Proof.
  intros u l s s' H U (D1 & D2). destruct l; cbn in H.
  - split.
    + intros c r v. rewrite (qt_cl _ _ H). apply D1.
    + intros c r q A. destruct (qt_rq _ _ H c) as [E|E]; rewrite E in A; [eapply D2; eauto | discriminate].
  - destruct H as (N & H). assert (E : comps s' = comps (asked s c r q)) by (destruct H as [(_ & ->)|(_ & p & ->)]; auto).
    split; intros d x v; rewrite E; unfold asked; (destruct (Nat.eq_dec d c) as [->|D]; [rewrite comps_same | rewrite comps_diff by auto]); try (apply D1 || apply D2).
    cbn [c_requests w_requests]. destruct (Nat.eq_dec x r) as [->|D]; [|rewrite alookup_aset_diff by auto; apply D2].
    rewrite alookup_aset_same. intros F. injection F as <-. destruct (alookup r (c_requests (comps s c))) eqn:F; auto. apply mult_add; eauto.
  - destruct H as (_ & _ & s1 & T & ->). destruct (tk_self _ _ _ _ _ T) as (cl & E & _ & L). split; intros d x v.
    + destruct (Nat.eq_dec d c) as [->|D]; [rewrite comps_same | rewrite comps_diff by auto; rewrite (tk_oth _ _ _ _ _ T) by auto; apply D1].
      rewrite E. cbn [c_claims w_claims w_requests]. rewrite L.
      destruct (alookup x (c_requests (comps s c))) as [q|] eqn:Q; [|apply D1].
      destruct (memb x (grant s c) && negb (r_anon (rsc s x))) eqn:B; [|apply D1].
      intros F. injection F as <-. destruct (alookup x (c_claims (comps s c))) eqn:F; eauto using mult_add.
    + destruct (Nat.eq_dec d c) as [->|D]; [rewrite comps_same; discriminate | rewrite comps_diff by auto; rewrite (tk_oth _ _ _ _ _ T) by auto; apply D2].
  - destruct H as (A & LE & _ & H). destruct (gv_self _ _ _ _ _ _ H) as (cl & E & L). split; intros d x w.
    + destruct (Nat.eq_dec d c) as [->|D]; [|rewrite (gv_oth _ _ _ _ _ _ H) by auto; apply D1].
      rewrite E. cbn [c_claims w_claims]. rewrite L. destruct (Nat.eqb_spec x r) as [->|D]; [|apply D1].
      destruct (full v q0) eqn:FL; [discriminate|]. intros F. injection F as <-. apply mult_sub; [eauto|]. destruct U as [->|U]; [eauto | auto].
    + destruct (Nat.eq_dec d c) as [->|D]; [rewrite E | rewrite (gv_oth _ _ _ _ _ _ H) by auto]; apply D2.
  - destruct H as (_ & E & _). rewrite E. split; [exact D1 | exact D2].
  - destruct H as (E & _). rewrite E. split; [exact D1 | exact D2].
Qed.
Lemma DI_noresidue : forall u l s s', eps <= u -> lstep l s s' -> unit_lab u l -> DI u s -> noresidue l.
Proof.
  intros u l s s' U H L (D1 & _). destruct l; cbn; auto. destruct H as (A & LE & _). intros F. destruct L as [->|L]; [lra|].
  unfold full in F. apply Qltb_iff in F. assert (K : v - q0 == 0) by (apply mult_small with (u := u); auto; [apply mult_sub; eauto | lra]). lra.
Qed.

(** ** the monitors *)
Definition mon3 (x : resource) : Prop := r_mcap x = r_cap x /\ r_mclaimed x = r_claimed x /\ r_mavail x = xsubq (r_cap x) (r_claimed x).
Definition mon_occ (x : resource) : Prop :=
  r_mocc x == match r_cap x with PInf => 0 | Fin k => if Qle_bool k 0 then 0 else r_claimed x / k end.
Definition mcap_ok (x : resource) : Prop := r_mcap x = r_cap x.
Lemma plain_mon : forall x y, plain x = plain y -> (mon3 x <-> mon3 y) /\ (mon_occ x <-> mon_occ y).
Proof.
  intros x y E. apply plain_claimed in E. destruct E as (A & B & C & D & F & G). unfold mon3, mon_occ. rewrite A, B, C, D, F, G. tauto.
Qed.
Lemma tally_mon : forall x v, r_mcap x = r_cap x -> mon3 (r_tally (w_claimed v x)) /\ mon_occ (r_tally (w_claimed v x)).
Proof. intros x v E. split; [split; [auto | split; reflexivity] | unfold mon_occ; cbn; unfold occ; lra]. Qed.
Lemma mon_step : forall l s s' r, lstep l s s' -> mon3 (rsc s r) -> mon3 (rsc s' r) /\ (mon_occ (rsc s r) -> mon_occ (rsc s' r)).
Proof.
  intros l s s' r H M. pose proof M as (MC & _). destruct l; cbn in H.
  - destruct (plain_mon _ _ (qt_rsc _ _ H r)). tauto.
  - assert (E : rsc s' = rsc s) by (destruct H as (_ & [(_ & ->)|(_ & p & ->)]); auto). rewrite E. tauto.
  - destruct H as (_ & _ & H). apply (grant_rsc _ _ _ r) in H. apply plain_mon in H. destruct H as (H1 & H2). rewrite H1, H2.
    destruct (alookup r (c_requests (comps s c))); [destruct (memb r (grant s c))|]; auto. destruct (tally_mon (rsc s r) (r_claimed (rsc s r) + q) MC). auto.
  - destruct H as (_ & _ & _ & H). rewrite (gv_rsc _ _ _ _ _ _ H). destruct (Nat.eqb_spec r r0) as [->|]; auto.
    match goal with |- context [w_claimed ?v ?x] => destruct (tally_mon x v MC) end. auto.
  - destruct H as (_ & _ & H). rewrite H. destruct (Nat.eqb_spec r r0) as [->|]; auto. unfold anon_after.
    match goal with |- context [w_claimed ?v ?x] => destruct (tally_mon x v MC) end. auto.
  - destruct H as (_ & H). rewrite H. destruct (Nat.eqb_spec r r0) as [->|]; auto. destruct M as (_ & M2 & _).
    split; [split; [auto | split; [exact M2 | reflexivity]] | intros _; unfold mon_occ; cbn; unfold occ; lra].
Qed.

(** ** the capacity *)
Definition fits (x : resource) : Prop := xle (Fin (r_claimed x)) (xaddq (r_cap x) eps).
Definition nonneg_lab (l : lab) : Prop := match l with LFree c r v q0 _ => 0 <= q0 | LAnon r (Some q) => 0 <= q | _ => True end.
Definition not_cap (l : lab) : Prop := match l with LCap _ _ => False | _ => True end.
Lemma enough_fits : forall R q, enough R q = true -> r_claimed R + q <= r_claimed R \/ xle (Fin (r_claimed R + q)) (xaddq (r_cap R) eps).
Proof.
  intros R q H. unfold enough in H. destruct (Qltb 0 q) eqn:B.
  - right. apply negb_true_iff, xltb_false_iff in H. unfold avail in H. destruct (r_cap R); cbn in *; auto. lra.
  - left. apply Qltb_false_iff in B. lra.
Qed.
Lemma enough_low : forall R q, enough R q = true -> r_claimed R <= r_claimed R + q \/ - eps <= r_claimed R + q.
Proof.
  intros R q H. unfold enough in H. destruct (Qltb 0 q) eqn:B.
  - apply Qltb_iff in B. lra.
  - right. apply negb_true_iff, Qltb_false_iff in H. lra.
Qed.
Lemma memb_In : forall x l, memb x l = true -> In x l. Proof. intros. apply memb_iff; auto. Qed.
Lemma claimed_step : forall l s s' r, lstep l s s' -> not_cap l -> nonneg_lab l -> GI none s -> CL s -> TI s ->
  r_cap (rsc s' r) = r_cap (rsc s r) /\
  (r_claimed (rsc s' r) <= r_claimed (rsc s r) \/ r_claimed (rsc s' r) == 0 \/ fits (rsc s' r)) /\
  (r_claimed (rsc s r) <= r_claimed (rsc s' r) \/ - eps <= r_claimed (rsc s' r) \/ (r_anon (rsc s r) = false)).
Proof.
  intros l s s' r H NC NN G C T. destruct l; cbn in H; try (destruct NC).
  - destruct (plain_claimed _ _ (qt_rsc _ _ H r)) as (-> & -> & _). split; auto. split; [left|left]; lra.
  - assert (E : rsc s' = rsc s) by (destruct H as (_ & [(_ & ->)|(_ & p & ->)]); auto). rewrite E. split; auto. split; left; lra.
  - destruct H as (_ & _ & H). pose proof (grant_rsc _ _ _ r H) as P. apply plain_claimed in P. destruct P as (P1 & P2 & _). unfold fits. rewrite P1, P2.
    destruct (alookup r (c_requests (comps s c))) as [q|] eqn:A; [destruct (memb r (grant s c)) eqn:B|]; try (split; auto; split; left; lra).
    cbn [r_cap r_claimed r_tally w_claimed]. split; auto.
    assert (K : can_one s c r q = true) by (apply grant_can; auto; apply memb_In; auto).
    unfold can_one in K. apply andb_prop in K. destruct K as (_ & K). split.
    + destruct (enough_fits _ _ K); auto.
    + destruct (enough_low _ _ K); auto.
  - destruct H as (A & LE & _ & H). cbn in NN. rewrite (gv_rsc _ _ _ _ _ _ H). destruct (Nat.eqb_spec r r0) as [->|]; [|split; auto; split; left; lra].
    cbn [r_cap r_claimed r_tally w_claimed]. split; auto. destruct (cl_pos _ C _ _ _ A) as (_ & AN). split; [|auto].
    destruct (full v q0 && negb (nonnil (adel c (qs s (QClaim r0))))); [right; left | left]; lra.
  - destruct H as (AN & _ & H). rewrite H. destruct (Nat.eqb_spec r r0) as [->|]; [|split; auto; split; left; lra].
    unfold anon_after. cbn [r_cap r_claimed r_tally w_claimed]. split; auto.
    destruct q as [q|]; cbn in NN; (match goal with |- context [Qltb ?a ?b] => destruct (Qltb a b) eqn:B end); unfold eps in *.
    + split; [right; left; lra | right; left; lra].
    + apply Qltb_false_iff in B. split; [left; lra | right; left; lra].
    + split; [right; left; lra | right; left; lra].
    + apply Qltb_false_iff in B. split; [left; lra | right; left; lra].
Qed.

(** ** Executions *)
Inductive runs_p (P : env -> op -> Prop) : env -> env -> Prop :=
| rpp_refl : forall s, runs_p P s s
| rpp_step : forall s s1 o s2 n r, runs_p P s s1 -> P s1 o -> wf s1 o -> exec n o s1 = (s2, r) -> (forall e, r = Er e -> caught o e /\ calm o) ->
    runs_p P s s2.
(** what Resource.__init__ allows 24023-24025 *)
Definition fresh (R : nat -> resource) : Prop :=
  forall r, exists cap q an pre hf hp, R r = res0 cap q an pre hf hp /\ (an = false -> q = 0).
Definition reach_p (P : env -> op -> Prop) (s : env) : Prop :=
  exists t0 R sv kc hp y d, fresh R /\ runs_p P (init t0 R sv kc hp y d) s.
Lemma runs_p_t : forall P s s', runs_p P s s' -> runs_t s s'.
Proof. induction 1; [constructor | eapply rt_step; eauto]. Qed.
Lemma reach_p_t : forall P s, reach_p P s -> reach_t s.
Proof. intros P s (t0 & R & sv & kc & hp & y & d & _ & H). exists t0, R, sv, kc, hp, y, d. eapply runs_p_t; eauto. Qed.
Lemma runs_p_weak : forall (P P' : env -> op -> Prop) s s', (forall s o, P s o -> P' s o) -> runs_p P s s' -> runs_p P' s s'.
Proof. intros P P' s s' H R. induction R; [constructor | eapply rpp_step; eauto]. Qed.
Lemma reach_p_weak : forall (P P' : env -> op -> Prop) s, (forall s o, P s o -> P' s o) -> reach_p P s -> reach_p P' s.
Proof. intros P P' s H (t0 & R & sv & kc & hp & y & d & F & K). exists t0, R, sv, kc, hp, y, d. split; auto. eapply runs_p_weak; eauto. Qed.
Lemma runs_p_trans : forall P a b c, runs_p P a b -> runs_p P b c -> runs_p P a c.
Proof. intros P a b c H K. induction K as [|s s1 o s2 n r K IH PO W E C]; auto. exact (rpp_step P a s1 o s2 n r (IH H) PO W E C). Qed.
(** scripts whose operations satisfy a test *)
Fixpoint script_p (b : env -> op -> bool) (n : nat) (l : list op) (s : env) : option env :=
  match l with
  | [] => Some s
  | o :: t => if b s o && wfb s o then match exec n o s with (s1, Ok _) => script_p b n t s1 | _ => None end else None
  end.
Lemma script_p_runs : forall (P : env -> op -> Prop) b n, (forall s o, b s o = true -> P s o) -> forall l s s', script_p b n l s = Some s' -> runs_p P s s'.
Proof.
  intros P b n HB. induction l as [|o t IH]; intros s s' H; cbn [script_p] in H.
  - injection H as <-. constructor.
  - destruct (b s o && wfb s o) eqn:W; [|discriminate]. apply andb_prop in W. destruct W as (B & W).
    destruct (exec n o s) as [s1 [a|e]] eqn:E; [|discriminate].
    eapply runs_p_trans; [|apply IH; eauto]. eapply rpp_step with (o := o); [constructor | apply HB; auto | apply wfb_wf; auto | exact E | discriminate].
Qed.

(** an invariant of the elementary changes is an invariant of the executions *)
Lemma inv_path : forall (P : lab -> Prop) (I : env -> Prop), (forall l s s', P l -> lstep l s s' -> GI none s -> GI none s' -> I s -> I s') ->
  forall s s', rpath P s s' -> I s -> I s'.
Proof. intros P I H s s' R. induction R; eauto. Qed.
Lemma inv_runs : forall (P : env -> op -> Prop) (I : env -> Prop),
  (forall s o n s' r, QI s -> P s o -> wf s o -> exec n o s = (s', r) -> (forall e, r = Er e -> caught o e /\ calm o) -> I s -> I s') ->
  forall s s', runs_p P s s' -> QI s -> I s -> I s'.
Proof.
  intros P I H s s' R. induction R as [|s s1 o s2 n r R IH PO W E C]; intros Q K; auto.
  apply (H s1 o n s2 r); auto. eapply runs_t_QI; eauto. eapply runs_p_t; eauto.
Qed.
Record AM (s : env) : Prop := { am_cl : CL s; am_ti : TI s; am_mon : forall r, mon3 (rsc s r) }.
Lemma AM_step : forall l s s', lstep l s s' -> GI none s -> AM s -> AM s'.
Proof.
  intros l s s' H G A. constructor.
  - eapply CL_step; eauto. apply A.
  - eapply TI_step; eauto; apply A.
  - intros r. eapply mon_step; eauto. apply A.
Qed.
Lemma fresh_at : forall R r, fresh R -> mon3 (R r) /\ (r_anon (R r) = false -> r_claimed (R r) = 0) /\ r_mocc (R r) = 0 /\ r_minq (R r) = PInf /\ r_trying (R r) = false.
Proof. intros R r F. destruct (F r) as (cap & q & an & pre & hf & hp & -> & K). repeat split; auto. Qed.
Lemma comps_init : forall t0 R sv kc hp y d c, exists b st, comps (init t0 R sv kc hp y d) c = w_status st (w_hasproc b comp0).
Proof.
  intros. unfold init. cbn [comps]. unfold upd. destruct (Nat.eqb c main); [exists (hp main), Current | exists (hp c), Data]; reflexivity.
Qed.
Lemma AM_init : forall t0 R sv kc hp y d, fresh R -> AM (init t0 R sv kc hp y d).
Proof.
  intros t0 R sv kc hp y d F. constructor.
  - constructor; intros c r v; destruct (comps_init t0 R sv kc hp y d c) as (b & st & ->); cbn; discriminate.
  - constructor; intros r A; cbn in *; destruct (fresh_at R r F) as (_ & -> & _); auto; lra.
  - intros r. apply (fresh_at R r F).
Qed.
Lemma reach_AM : forall P s, reach_p P s -> AM s.
Proof.
  intros P s (t0 & R & sv & kc & hp & y & d & F & H). eapply (inv_runs P AM); eauto; [| apply QI_init | apply AM_init; auto].
  intros s1 o n s2 r Q _ W E C A. apply (inv_path (labs s1 o) AM) with (s := s1); auto; [intros; eapply AM_step; eauto | eapply exec_path; eauto].
Qed.
Lemma reach_p_QI : forall P s, reach_p P s -> QI s. Proof. intros. eapply reach_t_QI, reach_p_t; eauto. Qed.
