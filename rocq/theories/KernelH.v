(** The retries end: with enough fuel no call on resources runs out of it, and more fuel makes no difference. *)
From Coq Require Import QArith Lqa List Bool Arith ZArith Lia.
From Verif Require Import Base Kernel Wp KernelE KernelL KernelX KernelT KernelU KernelR KernelQ KernelS KernelI KernelP KernelO KernelA KernelB KernelC KernelD KernelF.
Import ListNotations.
Open Scope Q_scope.

(** ** More fuel makes no difference *)
Definition mle {A} (m m' : M A) : Prop := forall s, snd (m s) = Er OutOfFuel \/ m' s = m s.
Lemma mle_refl : forall A (m : M A), mle m m. Proof. intros A m s. auto. Qed.
Lemma mle_raise : forall A (m : M A), mle (raise OutOfFuel) m. Proof. intros A m s. left. reflexivity. Qed.
Lemma mle_bind : forall A B (m m' : M A) (k k' : A -> M B), mle m m' -> (forall a, mle (k a) (k' a)) -> mle (bind m k) (bind m' k').
Proof.
  intros A B m m' k k' H K s. unfold bind. destruct (H s) as [E|E].
  - destruct (m s) as [s1 [a|e]]; cbn in E; [discriminate|]. injection E as ->. left. reflexivity.
  - rewrite E. destruct (m s) as [s1 [a|e]]; [apply K | auto].
Qed.
Lemma mle_when : forall b m m', mle m m' -> mle (when b m) (when b m'). Proof. intros [] m m' H; [exact H | apply mle_refl]. Qed.
Lemma mle_mfor : forall A (l : list A) (f f' : A -> M unit), (forall a, mle (f a) (f' a)) -> mle (mfor l f) (mfor l f').
Proof. induction l as [|a t IH]; intros f f' H; cbn [mfor]; [apply mle_refl|]. apply mle_bind; auto. Qed.
Lemma mle_trans : forall A (a b c : M A), mle a b -> mle b c -> mle a c.
Proof. intros A a b c H K s. destruct (H s) as [E|E]; auto. destruct (K s) as [F|F]; [left; congruence | right; congruence]. Qed.
Create HintDb ml.
#[export] Hint Resolve mle_refl mle_raise : ml.
Ltac fml :=
  repeat first
    [ apply mle_refl | apply mle_raise | solve [auto with ml]
    | apply mle_bind; [|intros]
    | apply mle_when | apply mle_mfor; intros
    | match goal with |- mle (if ?b then _ else _) _ => destruct b end
    | match goal with |- mle (match ?b with _ => _ end) _ => destruct b end
    | progress cbv zeta ].
Lemma ml_c_try : forall rt rt' c, (forall r, mle (rt r) (rt' r)) -> mle (c_try rt c) (c_try rt' c).
Proof. intros rt rt' c H. unfold c_try. fml. Qed.
Lemma ml_rloop : forall ct ct' r an f p n n' mx, (n <= n')%nat -> (forall c, mle (ct c) (ct' c)) -> mle (rloop ct n r an f p mx) (rloop ct' n' r an f p mx).
Proof.
  intros ct ct' r an f p. induction n as [|n IH]; intros n' mx L H.
  - cbn [rloop]. destruct mx as [(c, pc)|]; [auto with ml|]. destruct n'; apply mle_refl.
  - destruct n' as [|n']; [lia|]. cbn [rloop]. assert (L' : (n <= n')%nat) by lia. destruct mx as [(c, pc)|]; [|auto with ml]. fml.
Qed.
Lemma ml_r_try : forall n n' r, (n <= n')%nat -> mle (r_try n r) (r_try n' r).
Proof.
  induction n as [|n IH]; intros n' r L; [apply mle_raise|]. destruct n' as [|n']; [lia|]. cbn [r_try]. assert (L' : (n <= n')%nat) by lia.
  assert (K : forall an fi p mx, mle (rloop (c_try (r_try n)) n r an fi p mx) (rloop (c_try (r_try n')) n' r an fi p mx)).
  { intros. apply ml_rloop; auto. intros. apply ml_c_try. intros. apply IH; auto. }
  fml.
Qed.
#[export] Hint Resolve ml_r_try : ml.
Lemma ml_release1 : forall n n' c r q b, (n <= n')%nat -> mle (release1 n c r q b) (release1 n' c r q b). Proof. intros. unfold release1. fml. Qed.
#[export] Hint Resolve ml_release1 : ml.
Lemma ml_release : forall n n' c a, (n <= n')%nat -> mle (release n c a) (release n' c a). Proof. intros. unfold release. fml. Qed.
#[export] Hint Resolve ml_release : ml.
Lemma ml_release_claimers : forall f f' r n n' mx, (f <= f')%nat -> (n <= n')%nat -> mle (release_claimers f n r mx) (release_claimers f' n' r mx).
Proof.
  intros f f' r. induction n as [|n IH]; intros n' mx F L; [cbn [release_claimers]; destruct mx as [(c, p)|]; [auto with ml | destruct n'; apply mle_refl]|].
  destruct n' as [|n']; [lia|]. cbn [release_claimers]. assert (L' : (n <= n')%nat) by lia. destruct mx as [(c, p)|]; [|auto with ml]. fml.
Qed.
#[export] Hint Resolve ml_release_claimers : ml.
Lemma ml_items : forall n n' k c, (n <= n')%nat -> (forall w, mle (item_enter n k c w) (item_enter n' k c w)) /\ mle (item_leave n k c) (item_leave n' k c).
Proof.
  induction n as [|n IH]; intros n' k c L; [split; intros; apply mle_raise|]. destruct n' as [|n']; [lia|].
  assert (I1 : forall k c w, mle (item_enter n k c w) (item_enter n' k c w)) by (intros; apply IH; lia).
  assert (I2 : forall k c, mle (item_leave n k c) (item_leave n' k c)) by (intros; apply IH; lia).
  split; [intros w; cbn [item_enter] | cbn [item_leave]]; fml.
Qed.
Lemma ml_item_enter : forall n n' k c w, (n <= n')%nat -> mle (item_enter n k c w) (item_enter n' k c w). Proof. intros. apply ml_items; auto. Qed.
Lemma ml_item_leave : forall n n' k c, (n <= n')%nat -> mle (item_leave n k c) (item_leave n' k c). Proof. intros. apply ml_items; auto. Qed.
#[export] Hint Resolve ml_item_enter ml_item_leave : ml.
Lemma ml_to_try : forall n n' c i p ks, (n <= n')%nat -> mle (to_try n c i p ks) (to_try n' c i p ks).
Proof. intros n n' c i p ks L. induction ks as [|k t IH]; cbn [to_try]; fml. Qed.
#[export] Hint Resolve ml_to_try : ml.
Lemma ml_rescan_items : forall n n' k d l, (n <= n')%nat -> mle (rescan_items n k d l) (rescan_items n' k d l).
Proof. intros n n' k d l L. induction l as [|i t IH]; cbn [rescan_items]; fml. Qed.
#[export] Hint Resolve ml_rescan_items : ml.
Lemma ml_rescan : forall n n' k, (n <= n')%nat -> mle (rescan n k) (rescan n' k). Proof. intros. unfold rescan. fml. Qed.
#[export] Hint Resolve ml_rescan : ml.
Lemma ml_rescan_to : forall n n' k l, (n <= n')%nat -> mle (rescan_to_loop n k l) (rescan_to_loop n' k l).
Proof. intros n n' k l L. induction l as [|i t IH]; cbn [rescan_to_loop]; fml. Qed.
#[export] Hint Resolve ml_rescan_to : ml.
Lemma ml_continue : forall n n' c, (n <= n')%nat -> mle (continue n c) (continue n' c). Proof. intros. unfold continue. fml. Qed.
#[export] Hint Resolve ml_continue : ml.
Lemma ml_step_event : forall n n', (n <= n')%nat -> mle (step_event n) (step_event n'). Proof. intros. unfold step_event. fml. Qed.
#[export] Hint Resolve ml_step_event : ml.
Lemma ml_request1 : forall n n' c b a, (n <= n')%nat -> mle (request1 n c b a) (request1 n' c b a). Proof. intros n n' c b ((r, q), p) L. unfold request1. fml. Qed.
#[export] Hint Resolve ml_request1 : ml.
Lemma ml_request : forall n n' c a o f p u cap, (n <= n')%nat -> mle (request n c a o f p u cap) (request n' c a o f p u cap).
Proof. intros. unfold request. assert (K : forall c, mle (c_try (r_try n) c) (c_try (r_try n') c)) by (intros; apply ml_c_try; auto with ml). fml. Qed.
#[export] Hint Resolve ml_request : ml.
(** a call that ends does not depend on the fuel *)
Lemma ml_exec : forall n n' o, (n <= n')%nat -> mle (exec n o) (exec n' o).
Proof.
  intros n n' o L. destruct o; cbn [exec]; auto with ml.
  - unfold cancel. fml.
  - unfold res_release. fml.
  - unfold set_cap. fml.
  - unfold from_store. fml.
  - unfold to_store. fml.
  - unfold st_set_cap. fml.
  - unfold set_filter. fml.
  - unfold step. fml.
  - unfold terminate. fml.
Qed.
Lemma exec_fuel : forall n n' o s s' r, (n <= n')%nat -> exec n o s = (s', r) -> r <> Er OutOfFuel -> exec n' o s = (s', r).
Proof. intros n n' o s s' r L E N. destruct (ml_exec n n' o L s) as [K|K]; rewrite E in K; cbn in K; congruence. Qed.

(** ** Functions that do not use fuel *)
Definition nofuel {A} (m : M A) : Prop := forall s, snd (m s) <> Er OutOfFuel.
Lemma nf_ret : forall A (a : A), nofuel (ret a). Proof. intros A a s. discriminate. Qed.
Lemma nf_get : forall A (f : env -> A), nofuel (get f). Proof. intros A f s. discriminate. Qed.
Lemma nf_put : forall f, nofuel (put f). Proof. intros f s. discriminate. Qed.
Lemma nf_raise : forall A e, e <> OutOfFuel -> nofuel (@raise A e). Proof. intros A e N s. cbn. congruence. Qed.
Lemma nf_bind : forall A B (m : M A) (k : A -> M B), nofuel m -> (forall a, nofuel (k a)) -> nofuel (bind m k).
Proof. intros A B m k H K s. unfold bind. specialize (H s). destruct (m s) as [s1 [a|e]]; [apply K | cbn in *; congruence]. Qed.
Lemma nf_when : forall b m, nofuel m -> nofuel (when b m). Proof. intros [] m H; [exact H | apply nf_ret]. Qed.
Lemma nf_mfor : forall A (l : list A) f, (forall a, nofuel (f a)) -> nofuel (mfor l f).
Proof. induction l as [|a t IH]; intros f H; cbn [mfor]; [apply nf_ret|]. apply nf_bind; auto. Qed.
Create HintDb nf.
Ltac fnf :=
  repeat first
    [ apply nf_ret | apply nf_get | apply nf_put | apply nf_raise; discriminate | solve [auto with nf]
    | apply nf_bind; [|intros]
    | apply nf_when | apply nf_mfor; intros
    | match goal with |- nofuel (if ?b then _ else _) => destruct b end
    | match goal with |- nofuel (match ?b with _ => _ end) => destruct b end
    | progress cbv zeta
    | progress unfold setc, setr, stat, q_enter, q_leave, q_prio, check_notdata, check_notmain ].
Lemma nf_remove : forall c, nofuel (remove c). Proof. intros. unfold remove. fnf. Qed.
Lemma nf_reschedule : forall c t p u cap, nofuel (reschedule c t p u cap). Proof. intros. unfold reschedule, push. fnf. Qed.
Lemma nf_check_fail : forall c, nofuel (check_fail c). Proof. intros. unfold check_fail, leave_req. fnf. Qed.
#[export] Hint Resolve nf_remove nf_reschedule nf_check_fail : nf.
Lemma nf_fail_time : forall f, nofuel (fail_time f). Proof. intros. unfold fail_time. fnf. Qed.
Lemma nf_activate : forall c a d p u pr kr kw cap, nofuel (activate c a d p u pr kr kw cap). Proof. intros. unfold activate. fnf. Qed.
#[export] Hint Resolve nf_fail_time nf_activate : nf.
Lemma nf_release1 : forall n c r q, nofuel (release1 n c r q true). Proof. intros. unfold release1. cbn [negb when]. fnf. Qed.
#[export] Hint Resolve nf_release1 : nf.
Lemma nf_request1 : forall n c b a, nofuel (request1 n c b a). Proof. intros n c b ((r, q), p). unfold request1. fnf. Qed.
#[export] Hint Resolve nf_request1 : nf.
Lemma nf_claim : forall c r q, nofuel (claim c r q). Proof. intros. unfold claim. fnf. Qed.
#[export] Hint Resolve nf_claim : nf.

(** ** The number of waiting components goes down with every grant *)
Section Ends.
Context (L : list nat) (HL : NoDup L).
Definition cnt (s : env) : nat := length (filter (fun c => nonnil (c_requests (comps s c))) L).
Definition sup (s : env) : Prop := forall c, c_requests (comps s c) <> [] -> In c L.
Definition inL (l : lab) : Prop := match l with LAsk c _ _ => In c L | _ => True end.
Definition noask (l : lab) : Prop := match l with LAsk _ _ _ => False | _ => True end.
Definition Inv (s : env) : Prop := GI none s /\ sup s.
Lemma reqs_step : forall l s s' c, lstep l s s' -> (forall r q, l <> LAsk c r q) -> c_requests (comps s' c) = c_requests (comps s c) \/ c_requests (comps s' c) = [].
Proof.
  intros l s s' c H N. destruct l; cbn in H.
  - apply (qt_rq _ _ H).
  - assert (E : c <> c0) by (intros ->; eapply N; eauto). left.
    destruct H as (_ & [(_ & ->)|(_ & p & ->)]); unfold asked, m_q; cbn [comps s_qs]; rewrite comps_diff; auto.
  - destruct H as (_ & _ & s1 & T & ->). destruct (Nat.eq_dec c c0) as [->|E]; [rewrite comps_same; auto | rewrite comps_diff by auto; left].
    rewrite (tk_oth _ _ _ _ _ T); auto.
  - destruct H as (_ & _ & _ & G). left. destruct (Nat.eq_dec c c0) as [->|E]; [destruct (gv_self _ _ _ _ _ _ G) as (cl & -> & _); auto | rewrite (gv_oth _ _ _ _ _ _ G); auto].
  - destruct H as (_ & -> & _). auto.
  - destruct H as (-> & _). auto.
Qed.
Lemma sup_step : forall l s s', inL l -> lstep l s s' -> sup s -> sup s'.
Proof.
  intros l s s' I H S c N. assert (D : (exists r q, l = LAsk c r q) \/ forall r q, l <> LAsk c r q).
  { destruct l; try (right; discriminate). destruct (Nat.eq_dec c c0) as [->|]; [left; eauto | right; congruence]. }
  destruct D as [(r & q & ->)|D]; [exact I|]. destruct (reqs_step _ _ _ c H D); [apply S|]; congruence.
Qed.
Lemma sup_path : forall (P : lab -> Prop) s s', (forall l, P l -> inL l) -> rpath P s s' -> sup s -> sup s'.
Proof. intros P s s' HP H. induction H; auto. intros. apply IHrpath. eapply sup_step; eauto. Qed.
Lemma reqs_path : forall (P : lab -> Prop) s s' c, (forall l, P l -> noask l) -> rpath P s s' -> c_requests (comps s' c) = c_requests (comps s c) \/ c_requests (comps s' c) = [].
Proof.
  intros P s s' c HP H. induction H as [|l s s1 s2 K G H G1 R IH]; auto.
  assert (D : forall r q, l <> LAsk c r q) by (intros r q ->; apply (HP _ K)).
  destruct (reqs_step _ _ _ c H D) as [E|E]; destruct IH as [F|F]; auto; [left | right]; congruence.
Qed.
Lemma cnt_le : forall s s', (forall c, c_requests (comps s' c) = c_requests (comps s c) \/ c_requests (comps s' c) = []) -> (cnt s' <= cnt s)%nat.
Proof.
  intros s s' H. unfold cnt. clear HL. induction L as [|c t IH]; cbn; auto.
  destruct (H c) as [->| ->]; cbn; [|destruct (nonnil _); cbn; lia]. destruct (nonnil _); cbn; lia.
Qed.
Lemma cnt_lt : forall s s' d, (forall c, c_requests (comps s' c) = c_requests (comps s c) \/ c_requests (comps s' c) = []) -> In d L ->
  c_requests (comps s d) <> [] -> c_requests (comps s' d) = [] -> (cnt s' < cnt s)%nat.
Proof.
  intros s s' d H I N E. unfold cnt. clear HL. induction L as [|c t IH]; cbn; [destruct I|].
  assert (LE : (length (filter (fun c => nonnil (c_requests (comps s' c))) t) <= length (filter (fun c => nonnil (c_requests (comps s c))) t))%nat).
  { clear IH I. induction t as [|x t IH]; cbn; auto. destruct (H x) as [->| ->]; cbn; [|destruct (nonnil _); cbn; lia]. destruct (nonnil _); cbn; lia. }
  destruct I as [->|I].
  - rewrite E. destruct (c_requests (comps s d)); [congruence|]. cbn. lia.
  - specialize (IH I). destruct (H c) as [->| ->]; cbn; [|destruct (nonnil _); cbn; lia]. destruct (nonnil _); cbn; lia.
Qed.
Lemma cnt_L : forall s, (cnt s <= length L)%nat.
Proof. intros s. unfold cnt. clear HL. induction L as [|x t IH]; cbn; auto. destruct (nonnil _); cbn; lia. Qed.
Lemma queue_cnt : forall s r, Inv s -> (length (qs s (QReq r)) <= cnt s)%nat.
Proof.
  intros s r (G & S). unfold cnt. rewrite <- (map_length fst (qs s (QReq r))). apply NoDup_incl_length; [apply (gi_nd _ _ G)|].
  intros c I. assert (W : c_requests (comps s c) <> []).
  { apply (gi_mem _ _ G (QReq r) c eq_refl) in I. destruct I as (I & _). intros E. cbn in I. rewrite E in I. destruct I. }
  apply filter_In. split; auto. destruct (c_requests (comps s c)); [congruence | auto].
Qed.
Definition T {A} (m : M A) : Prop := forall s, Inv s -> wp m (fun _ s' => Inv s') (fun e s' => Inv s' /\ e <> OutOfFuel) s.
Lemma T_intro : forall A (m : M A), nofuel m -> frames (RP inL) m -> T m.
Proof.
  intros A m N F s (G & S). destruct (F s G) as (G' & P). specialize (N s).
  assert (I : Inv (fst (m s))) by (split; auto; apply (sup_path inL s); auto).
  unfold wp. destruct (m s) as [s' [a|e]]; cbn in *; auto. split; auto. congruence.
Qed.
Lemma T_bind : forall A B (m : M A) (k : A -> M B), T m -> (forall a, T (k a)) -> T (bind m k).
Proof. intros A B m k H K s I. apply wp_bind. eapply wp_conseq; [apply H; auto | cbv beta | cbv beta; auto]. intros a s' I'. apply K; auto. Qed.
Lemma T_ret : forall A (a : A), T (ret a). Proof. intros A a s I. apply wp_ret; auto. Qed.
Lemma T_mfor : forall A (l : list A) f, (forall a, T (f a)) -> T (mfor l f).
Proof. induction l as [|a t IH]; intros f H; cbn [mfor]; [apply T_ret|]. apply T_bind; auto. Qed.
Lemma T_when : forall b m, T m -> T (when b m). Proof. intros [] m H; [exact H | apply T_ret]. Qed.
Lemma T_get : forall A B (f : env -> A) (k : A -> M B), (forall a, T (k a)) -> T (bind (get f) k).
Proof. intros A B f k H s I. apply wp_bind, wp_get. apply H; auto. Qed.

Definition gq2 (l : lab) : Prop := match l with LQuiet None | LGrant _ => True | _ => False end.
Definition down (s s' : env) : Prop := Inv s' /\ (cnt s' <= cnt s)%nat /\ forall r, exists f, qs s' (QReq r) = filter f (qs s (QReq r)).
Lemma gq2_down : forall s s', Inv s -> GI none s' -> rpath gq2 s s' -> down s s'.
Proof.
  intros s s' (G & S) G' H.
  assert (N : forall l, gq2 l -> noask l) by (intros [[]| | | | |]; cbn; tauto).
  split; [split; auto; apply (sup_path gq2 s); auto; intros [[]| | | | |]; cbn; tauto|].
  split; [apply cnt_le; intros; eapply reqs_path; eauto|].
  intros r. clear S G'. induction H as [s|l s s1 s2 K GS H G1 R IH]; [exists (fun _ => true); rewrite filter_true; auto|].
  destruct (IH G1) as (f & E). rewrite E.
  assert (F1 : exists f1, qs s1 (QReq r) = filter f1 (qs s (QReq r))).
  { destruct l as [[]| | | | |]; cbn in K; try tauto.
    - apply (qt_req _ _ H).
    - destruct H as (_ & _ & s0 & TK & ->). change (qs (m_comp c (w_requests []) s0)) with (qs s0). rewrite (tk_req _ _ _ _ _ TK). destruct (memb _ _).
      + eexists. reflexivity.
      + exists (fun _ => true). rewrite filter_true. auto. }
  destruct F1 as (f1 & ->). exists (fun x => f1 x && f x). clear. induction (qs s (QReq r)) as [|y t IH]; cbn; auto.
  destruct (f1 y); cbn; [destruct (f y); cbn; congruence | auto].
Qed.
Lemma t_ctry : forall rt c s, Inv s -> (forall r, frames (RP gq2) (rt r)) ->
  (forall r z, Inv z -> (cnt z < cnt s)%nat -> wp (rt r) (fun _ z' => down z z') (fun e _ => e <> OutOfFuel) z) ->
  wp (c_try rt c) (fun b s' => (b = false /\ s' = s) \/ (b = true /\ down s s' /\ (cnt s' < cnt s)%nat)) (fun e _ => e <> OutOfFuel) s.
Proof.
  intros rt c s I HF HR. pose proof I as (G & S). unfold c_try.
  apply wp_bind, wp_stat. apply wp_if; intros B; [apply wp_ret; auto|]. apply steqb_false_iff in B.
  apply wp_bind, wp_get, wp_bind. eapply wp_eq; [apply grant_eq; auto|].
  destruct (grant s c) as [|r0 rh0] eqn:GR; [apply wp_ret; auto|]. rewrite <- GR.
  apply wp_bind, wp_get, wp_bind, wp_get, wp_bind.
  eapply wp_conseq; [apply took_all; auto | cbv beta | intros ? ? []]. intros _ s1 TK. apply wp_bind, wp_setc.
  assert (GG : granted s c (m_comp c (w_requests []) s1)) by (exists s1; auto).
  pose proof (granted_GI _ _ _ G GG) as G2. set (s2 := m_comp c (w_requests []) s1) in *.
  assert (LS : lstep (LGrant c) s s2) by (split; [auto|]; split; [congruence | auto]).
  assert (D2 : down s s2) by (apply gq2_down; auto; eapply rpath_one with (l := LGrant c); auto; exact Logic.I).
  assert (C2 : (cnt s2 < cnt s)%nat).
  { assert (NE : c_requests (comps s c) <> []). { intros Z. unfold grant in GR. rewrite Z in GR. cbn in GR. destruct (c_oneof _); discriminate. }
    apply (cnt_lt s s2 c); auto; [|unfold s2; rewrite comps_same; auto]. intros d. eapply reqs_step; eauto. discriminate. }
  match goal with |- context [mfor ?l rt] => set (an := l) end.
  assert (DT : forall a b d, down a b -> down b d -> down a d).
  { intros a b d (A1 & A2 & A3) (B1 & B2 & B3). split; auto. split; [lia|]. intros r. destruct (A3 r) as (f & F), (B3 r) as (f' & F'). rewrite F', F.
    exists (fun x => f x && f' x). clear. induction (qs a (QReq r)) as [|y t IH]; cbn; auto. destruct (f y); cbn; [destruct (f' y); cbn; congruence | auto]. }
  assert (Q : forall A (m : M A) z, nofuel m -> frames (RP gq2) m -> down s2 z -> wp m (fun _ z' => down s2 z') (fun e _ => e <> OutOfFuel) z).
  { intros A m z N F D. destruct (F z (proj1 (proj1 D))) as (G' & P). specialize (N z). pose proof (gq2_down _ _ (proj1 D) G' P) as D'.
    unfold wp. destruct (m z) as [z' [a|e]]; cbn in *; [eapply DT; eauto | congruence]. }
  assert (D0 : down s2 s2). { split; [apply D2|]. split; [lia|]. intros r. exists (fun _ => true). rewrite filter_true. auto. }
  assert (HQ : gq2 (LQuiet None)) by exact Logic.I. assert (HG : forall c, gq2 (LGrant c)) by (intros; exact Logic.I).
  apply wp_bind. eapply wp_conseq; [apply Q; [apply nf_remove | apply rp_remove; auto | exact D0] | cbv beta | auto]. intros _ s3 D3.
  apply wp_bind. eapply wp_conseq; [apply (Q _ (setc c (w_status Scheduled))); [unfold setc; fnf | | exact D3] | cbv beta | auto].
  { apply RP_quiet; [auto | fqt | fq none]. }
  clear D3. intros _ s4 D4. apply wp_bind, wp_get, wp_bind.
  eapply wp_conseq; [apply Q; [apply nf_reschedule | apply rp_reschedule; auto | exact D4] | cbv beta | auto]. clear D4. intros _ s5 D5.
  apply wp_bind, wp_get.
  assert (DM : forall l z, down s2 z -> wp (mfor l rt) (fun _ z' => down s2 z') (fun e _ => e <> OutOfFuel) z).
  { induction l as [|r t IH]; intros z D; cbn [mfor]; [apply wp_ret; auto|]. apply wp_bind. pose proof D as (D1 & D3 & _).
    eapply wp_conseq; [apply HR; [exact D1 | lia] | cbv beta | auto]. intros _ z' D'. apply IH. eapply DT; eauto. }
  assert (FIN : forall z, down s2 z -> (true = false /\ z = s) \/ (true = true /\ down s z /\ (cnt z < cnt s)%nat)).
  { intros z D. right. split; auto. split; [eapply DT; eauto|]. destruct D as (_ & D & _). lia. }
  apply wp_bind. apply wp_if; intros _.
  - eapply wp_conseq; [apply (Q _ (setc c (w_retry an))); [unfold setc; fnf | | exact D5] | cbv beta | auto].
    { apply RP_quiet; [auto | fqt | fq none]. }
    intros _ z D. apply wp_ret. apply FIN; auto.
  - eapply wp_conseq; [apply DM; exact D5 | cbv beta | auto]. intros _ z D. apply wp_ret. apply FIN; auto.
Qed.
Lemma down_refl : forall s, Inv s -> down s s.
Proof. intros s I. split; auto. split; [lia|]. intros r. exists (fun _ => true). rewrite filter_true. auto. Qed.
Lemma down_trans : forall a b d, down a b -> down b d -> down a d.
Proof.
  intros a b d (A1 & A2 & A3) (B1 & B2 & B3). split; auto. split; [lia|]. intros r. destruct (A3 r) as (f & F), (B3 r) as (f' & F'). rewrite F', F.
  exists (fun x => f x && f' x). clear. induction (qs a (QReq r)) as [|y t IH]; cbn; auto. destruct (f y); cbn; [destruct (f' y); cbn; congruence | auto].
Qed.
Definition tried (z : env) (b : bool) (z' : env) : Prop := (b = false /\ z' = z) \/ (b = true /\ down z z' /\ (cnt z' < cnt z)%nat).
Lemma filter_len : forall A (f : A -> bool) l, (length (filter f l) <= length l)%nat.
Proof. induction l as [|x t IH]; cbn; auto. destruct (f x); cbn; lia. Qed.
Lemma sfx_len : forall c f l, (length (sfx c (filter f l)) <= length (sfx c l))%nat.
Proof.
  induction l as [|(d, p) t IH]; cbn; auto. destruct (f (d, p)) eqn:F; cbn; destruct (Nat.eqb d c) eqn:E; cbn; auto.
  - rewrite !map_length. pose proof (filter_len _ f t). lia.
  - assert (S : forall l, (length (sfx c l) <= length l)%nat).
    { induction l as [|(x, y) u IHu]; cbn; auto. destruct (Nat.eqb x c); cbn; [rewrite map_length|]; lia. }
    rewrite map_length. pose proof (S (filter f t)). pose proof (filter_len _ f t). lia.
Qed.
Lemma sfm_len : forall mx f l, (length (sfm mx (filter f l)) <= length (sfm mx l))%nat.
Proof. intros [(c, p)|] f l; cbn; auto. apply sfx_len. Qed.
Lemma sfm_hd_len : forall l, length (sfm (hd_error l) l) = length l.
Proof. intros l. rewrite sfx_hd. apply map_length. Qed.
Lemma t_rloop : forall ct K r an first p1 n mx s, Inv s -> (forall c z, Inv z -> (cnt z <= cnt s)%nat -> wp (ct c) (tried z) (fun e _ => e <> OutOfFuel) z) ->
  (length (qs s (QReq r)) <= K)%nat -> (cnt s * S K + length (sfm mx (qs s (QReq r))) + 1 <= n)%nat ->
  wp (rloop ct n r an first p1 mx) (fun _ s' => down s s') (fun e _ => e <> OutOfFuel) s.
Proof.
  intros ct K r an first p1. induction n as [|n IH]; intros mx s I HC HK HN; [lia|].
  cbn [rloop]. destruct mx as [(c, p)|]; [|apply wp_ret, down_refl; auto].
  apply wp_bind, wp_get.
  apply wp_if; intros _; [apply wp_ret, down_refl; auto|]. apply wp_if; intros _; [apply wp_ret, down_refl; auto|]. apply wp_if; intros _; [apply wp_ret, down_refl; auto|].
  apply wp_bind, wp_get. apply wp_if; intros Q; [|apply wp_raise; discriminate]. cbv zeta. apply memb_iff in Q.
  pose proof (sfx_next (fun _ => False) c _ (gi_nd _ _ (proj1 I) (QReq r)) Q) as SN. cbn [sfm] in HN. rewrite SN in HN. cbn [length] in HN.
  apply wp_bind. eapply wp_conseq; [apply HC; auto | cbv beta | auto]. intros b s1 TR. apply wp_bind, wp_get.
  destruct TR as [(_ & ->)|(_ & D & LT)].
  - replace (an && negb (inq c (qs s (QReq r)))) with false.
    2: { symmetry. apply andb_false_iff. right. apply negb_false_iff. apply memb_iff. auto. }
    eapply wp_conseq; [apply IH; auto; lia | cbv beta; auto | auto].
  - pose proof D as (I1 & LE & FF). destruct (FF r) as (f & F).
    assert (K1 : (length (qs s1 (QReq r)) <= K)%nat) by (rewrite F; pose proof (filter_len _ f (qs s (QReq r))); lia).
    assert (M1 : (cnt s1 * S K + S K <= cnt s * S K)%nat) by nia.
    eapply wp_conseq; [apply IH; auto | cbv beta; intros _ s2 D2; eapply down_trans; eauto | auto].
    + intros d z IZ CZ. apply HC; auto. lia.
    + destruct (an && negb (inq c (qs s1 (QReq r)))).
      * rewrite sfm_hd_len. lia.
      * rewrite F. pose proof (sfm_len (qnext c (qs s (QReq r))) f (qs s (QReq r))). lia.
Qed.
Definition need (m : nat) : nat := ((m + 1) * (m + 1) + 2)%nat.
Lemma t_r_try : forall n r s, Inv s -> (need (cnt s) <= n)%nat -> wp (r_try n r) (fun _ s' => down s s') (fun e _ => e <> OutOfFuel) s.
Proof.
  induction n as [|n IH]; intros r s I N; [unfold need in N; lia|].
  assert (HG : forall c, gq2 (LGrant c)) by (intros; exact Logic.I).
  assert (CT : forall c z, Inv z -> (cnt z <= cnt s)%nat -> wp (c_try (r_try n) c) (tried z) (fun e _ => e <> OutOfFuel) z).
  { intros c z IZ CZ. apply t_ctry; auto; [intros; apply rp_r_try; auto; exact Logic.I|]. intros r' y IY CY. apply IH; auto. unfold need in *. nia. }
  assert (LP : forall z an first p1 mx, Inv z -> (cnt z <= cnt s)%nat -> mx = hd_error (qs z (QReq r)) ->
    wp (rloop (c_try (r_try n)) n r an first p1 mx) (fun _ s' => down z s') (fun e _ => e <> OutOfFuel) z).
  { intros z an first p1 mx IZ CZ ->. pose proof (queue_cnt z r IZ) as QC. apply t_rloop with (K := cnt s); auto; try lia.
    - intros c y IY CY. apply CT; auto. lia.
    - rewrite sfm_hd_len. unfold need in N. nia. }
  cbn [r_try]. apply wp_bind, wp_get, wp_bind, wp_get. cbv zeta. apply wp_if; intros _; [|apply LP; auto].
  apply wp_bind, wp_get. apply wp_if; intros _; [apply wp_ret, down_refl; auto|].
  assert (SR : forall z g, Inv z -> down z (m_rsc r (w_trying g) z)).
  { intros z g IZ. assert (IZ' : Inv (m_rsc r (w_trying g) z)) by (destruct IZ as (A & B); split; [eapply GI_same; [| |exact A]; reflexivity | exact B]).
    split; auto. split; [unfold cnt; cbn; lia|]. intros x. exists (fun _ => true). rewrite filter_true. auto. }
  apply wp_bind, wp_setr. apply wp_bind. pose proof (SR s true I) as D1.
  eapply wp_conseq; [apply LP; [apply D1 | apply D1 | reflexivity] | cbv beta | auto]. intros _ s2 D2. apply wp_setr.
  eapply down_trans; [exact D1|]. eapply down_trans; [exact D2|]. apply SR. apply D2.
Qed.
Lemma T_of : forall A (m : M A), frames (RP inL) m -> (forall s, Inv s -> wp m (fun _ _ => True) (fun e _ => e <> OutOfFuel) s) -> T m.
Proof.
  intros A m F W s I. specialize (W s I). destruct I as (G & S). destruct (F s G) as (G' & P).
  assert (J : Inv (fst (m s))) by (split; auto; apply (sup_path inL s); auto).
  unfold wp in *. destruct (m s) as [s' [a|e]]; cbn in *; auto.
Qed.
Lemma T_raise : forall A e, e <> OutOfFuel -> T (@raise A e). Proof. intros A e N s I. apply wp_raise. auto. Qed.
Lemma inL_weak : forall l, inL l \/ noask l -> inL l. Proof. intros []; cbn; tauto. Qed.
Context (n : nat) (HN : (need (length L) <= n)%nat).
Let HQ : inL (LQuiet None) := Logic.I.
Let HG : forall c, inL (LGrant c) := fun _ => Logic.I.
Lemma T_r_try : forall r, T (r_try n r).
Proof.
  intros r. apply T_of; [apply rp_r_try; auto|]. intros s I. eapply wp_conseq; [apply t_r_try; auto | cbv beta; auto | auto].
  pose proof (cnt_L s). unfold need in *. nia.
Qed.
Lemma T_eq : forall A (m m' : M A), (forall s, m s = m' s) -> T m' -> T m.
Proof. intros A m m' E H s I. unfold wp. rewrite E. apply H; auto. Qed.
Lemma T_release1 : forall c r q b, T (release1 n c r q b).
Proof.
  intros c r q b. eapply T_eq; [intros s; apply release1_split|]. apply T_bind; [|intros; apply T_when, T_r_try].
  apply T_intro; [apply nf_release1 | apply rp_release1; auto; intros; exact Logic.I].
Qed.
Lemma T_release : forall c a, T (release n c a).
Proof.
  intros c a. unfold release. destruct a; [apply T_get; intros; apply T_mfor; intros; apply T_release1|].
  apply T_mfor; intros. apply T_get. intros []; [apply T_raise; discriminate | apply T_release1].
Qed.
Lemma T_setc : forall c f, frames (quiet None) (setc c f) -> frames (RG none) (setc c f) -> T (setc c f).
Proof. intros. apply T_intro; [intros s; discriminate | apply RP_quiet; auto]. Qed.
Lemma T_put : forall f, frames (quiet None) (put f) -> frames (RG none) (put f) -> T (put f).
Proof. intros. apply T_intro; [intros s; discriminate | apply RP_quiet; auto]. Qed.
Ltac ft := repeat
    match goal with
    | |- T (ret _) => apply T_ret
    | |- T (raise _) => apply T_raise; discriminate
    | |- T (r_try _ _) => apply T_r_try
    | |- T (release1 _ _ _ _ _) => apply T_release1
    | |- T (bind (get _) _) => apply T_get; intros
    | |- T (bind _ _) => apply T_bind; [|intros]
    | |- T (when _ _) => apply T_when
    | |- T (mfor _ _) => apply T_mfor; intros
    | |- T (setc _ _) => apply T_setc; [fqt | fq none]
    | |- T (put _) => apply T_put; [fqt | fq none]
    | |- T (if ?b then _ else _) => destruct b
    | |- T (match ?b with _ => _ end) => destruct b
    end.
Lemma T_remove : forall c, T (remove c). Proof. intros. apply T_intro; auto with nf. apply rp_remove; auto. Qed.
Lemma T_check_fail : forall c, T (check_fail c). Proof. intros. apply T_intro; auto with nf. apply rp_check_fail; auto. Qed.
Lemma T_cancel : forall c, T (cancel n c).
Proof. intros. unfold cancel, stat. ft; auto using T_remove, T_check_fail. Qed.
Lemma T_terminate : forall c, T (terminate n c). Proof. intros. unfold terminate. ft. Qed.
Lemma T_continue : forall c, T (continue n c). Proof. intros. unfold continue. ft. Qed.
Lemma T_step_event : T (step_event n). Proof. unfold step_event. cbv zeta. ft; auto using T_check_fail, T_continue. Qed.
Lemma T_step : T (step n). Proof. unfold step, stat. ft; auto using T_continue, T_step_event. Qed.
Lemma T_setr : forall r f, frames (quiet None) (setr r f) -> frames (RG none) (setr r f) -> T (setr r f).
Proof. intros. apply T_intro; [intros s; discriminate | apply RP_quiet; auto]. Qed.
Lemma T_set_cap : forall r cap, T (set_cap n r cap).
Proof.
  intros r cap. apply T_of; [apply rp_set_cap; auto; exact Logic.I|]. intros s (G & S). unfold set_cap. apply wp_bind, wp_setr, wp_bind, wp_setr.
  match goal with |- wp _ _ _ ?z => assert (I : Inv z) end. { split; [eapply GI_same; [| |exact G]; reflexivity | exact S]. }
  eapply wp_conseq; [apply T_r_try; auto | cbv beta; auto | cbv beta; intros e s' K; apply K].
Qed.
Lemma T_request : forall c args o f p u cap, In c L -> T (request n c args o f p u cap).
Proof.
  intros c args o f p u cap IC.
  assert (IA : forall r q, inL (LAsk c r q)) by (intros; exact IC).
  assert (T1 : forall m : M unit, nofuel m -> frames (RP inL) m -> T m) by (intros; apply T_intro; auto).
  apply T_of; [apply rp_request; auto; intros; exact Logic.I|]. intros s I.
  assert (P1 : forall b a, T (request1 n c b a)).
  { intros. apply T_intro; [apply nf_request1 | apply rp_request1; auto; intros; exact Logic.I]. }
  assert (P2 : T (c_try (r_try n) c)).
  { apply T_of; [apply rp_c_try; auto; intros; apply rp_r_try; auto|]. intros z IZ.
    eapply wp_conseq; [apply t_ctry; auto; [intros; apply rp_r_try; auto; exact Logic.I|] | cbv beta; auto | auto].
    intros r y IY CY. apply t_r_try; auto. pose proof (cnt_L y). unfold need in *. nia. }
  assert (P3 : T (setc c (w_oneof o))).
  { intros z (G & S). apply wp_setc. split; [apply GI_comp; auto|]. intros d. destruct (Nat.eq_dec d c) as [->|]; [rewrite comps_same; auto | rewrite comps_diff; auto]. }
  assert (K : T (request n c args o f p u cap)); [|eapply wp_conseq; [apply K; auto | cbv beta; auto | cbv beta; intros e s' Z; apply Z]].
  assert (Q1 : T (remove c)) by apply T_remove. assert (Q2 : T (check_fail c)) by apply T_check_fail.
  assert (Q3 : forall t pr ur cp, T (reschedule c t pr ur cp)) by (intros; apply T_intro; auto with nf; apply rp_reschedule; auto).
  assert (Q4 : T (fail_time f)) by (apply T_intro; auto with nf; apply RP_quiet; auto with qt gq).
  assert (Q5 : T (check_notdata c)) by (unfold check_notdata, stat; ft). assert (Q6 : T (check_notmain c)) by (unfold check_notmain; ft).
  assert (Q7 : forall a, T (setr (fst a) (fun x => if xltb (Fin (snd a)) (r_minq x) then w_minq (Fin (snd a)) x else x))).
  { intros a. apply T_setr; [intros s0; apply quiet_rsc; intros; destruct (xltb _ _); reflexivity | fq none]. }
  unfold request, stat. apply T_bind; [exact P3|]. intros _. ft; auto.
Qed.
Definition mu (r : nat) (s : env) : nat := (length (qs s (QClaim r)) + cnt s)%nat.
Lemma ins_len : forall c p l, length (ins_sorted c p l) = S (length l).
Proof.
  intros c p l. unfold ins_sorted. destruct l as [|y t]; auto. destruct (xltb p (snd y)); auto. generalize (y :: t). clear.
  induction l as [|z u IH]; cbn [ins_tail]; auto. destruct (forallb _ _); cbn [length]; auto.
Qed.
Lemma mu_path : forall r s s', Inv s -> rpath gq2 s s' -> (mu r s' <= mu r s)%nat.
Proof.
  intros r s s' I H. induction H as [|l s s1 s2 K G H G1 R IH]; [lia|].
  assert (I1 : Inv s1). { split; auto. apply (sup_step l s s1); [destruct l as [[]| | | | |]; cbn in *; tauto | exact H | apply I]. }
  specialize (IH I1). enough (mu r s1 <= mu r s)%nat by lia. clear IH R.
  assert (RS : forall c, c_requests (comps s1 c) = c_requests (comps s c) \/ c_requests (comps s1 c) = []).
  { intros c. eapply reqs_step; eauto. intros x q ->. exact K. }
  unfold mu. destruct l as [[x|]| | | | |]; cbn in K; try tauto.
  - rewrite (qt_clm _ _ H). pose proof (cnt_le s s1 RS). lia.
  - assert (C : (cnt s1 < cnt s)%nat).
    { pose proof H as (_ & GR & z & _ & E). assert (NE : c_requests (comps s c) <> []). { intros Z. apply GR. unfold grant. rewrite Z. destruct (c_oneof _); auto. }
      apply (cnt_lt s s1 c); auto; [apply I; auto | rewrite E, comps_same; auto]. }
    destruct H as (_ & _ & s0 & TK & ->). change (qs (m_comp c (w_requests []) s0)) with (qs s0). rewrite (tk_clm _ _ _ _ _ TK).
    assert (Z : forall q, (length (newclaim c r q s (qs s (QClaim r))) <= S (length (qs s (QClaim r))))%nat).
    { intros q. unfold newclaim. destruct (inq _ _); [lia|]. destruct (qprio _ _); [rewrite ins_len|]; lia. }
    destruct (alookup r _) as [q|]; [destruct (_ && _); [specialize (Z q)|]; lia | lia].
Qed.
Lemma adel_len : forall A c (l : list (nat * A)), In c (map fst l) -> (length (adel c l) < length l)%nat.
Proof.
  intros A c l. unfold adel. induction l as [|(d, p) t IH]; cbn; [intros []|]. intros [->|I].
  - rewrite Nat.eqb_refl. cbn. match goal with |- context [filter ?f t] => pose proof (filter_len _ f t) end. lia.
  - specialize (IH I). destruct (negb _); cbn; lia.
Qed.
Lemma t_release_claimers : forall r k mx s, Inv s -> (mu r s + 1 <= k)%nat -> wp (release_claimers n k r mx) (fun _ _ => True) (fun e _ => e <> OutOfFuel) s.
Proof.
  intros r. induction k as [|k IH]; intros mx s I HK; [lia|]. cbn [release_claimers]. destruct mx as [(c, p)|]; [|apply wp_ret; auto].
  apply wp_bind, wp_get. apply wp_if; intros Q; [|apply wp_raise; discriminate]. cbv zeta. apply memb_iff in Q. apply wp_bind.
  unfold release. cbn [mfor]. apply wp_bind, wp_bind, wp_get. cbn [fst snd]. apply wp_if; intros _; [apply wp_raise; discriminate|].
  unfold wp at 1. rewrite release1_split. match goal with |- match ?m s with _ => _ end => change (wp m (fun a s' => wp (ret tt) (fun _ s'' => wp (release_claimers n k r (qnext c (qs s (QClaim r)))) (fun _ _ => True) (fun e _ => e <> OutOfFuel) s'') (fun e _ => e <> OutOfFuel) s') (fun e _ => e <> OutOfFuel) s) end.
  apply wp_bind. pose proof (nf_release1 n c r None s) as NF. pose proof (w_release1 n c r None s (proj1 I)) as W.
  unfold wp at 1. unfold wp at 1 in W. destruct (release1 n c r None true s) as [s1 [a|e]]; [|cbn in NF; congruence].
  destruct W as (G1 & v & A & V). cbn [taken_back] in V. cbn [negb when].
  assert (FU : full v v = true). { unfold full. apply Qltb_iff. unfold eps. lra. }
  assert (I1 : Inv s1).
  { split; auto. intros d. destruct (Nat.eq_dec d c) as [->|E]; [destruct (gv_self _ _ _ _ _ _ V) as (cl & -> & _); apply I | rewrite (gv_oth _ _ _ _ _ _ V) by auto; apply I]. }
  assert (M1 : (mu r s1 < mu r s)%nat).
  { unfold mu. rewrite (gv_q _ _ _ _ _ _ V), qeqb_refl, FU. pose proof (adel_len _ c (qs s (QClaim r)) Q).
    enough (cnt s1 <= cnt s)%nat by lia. apply cnt_le. intros d. left. destruct (Nat.eq_dec d c) as [->|E]; [destruct (gv_self _ _ _ _ _ _ V) as (cl & -> & _); auto | rewrite (gv_oth _ _ _ _ _ _ V) by auto; auto]. }
  assert (FR : frames (RP gq2) (r_try n r)) by (apply rp_r_try; [exact Logic.I | intros; exact Logic.I]).
  destruct (FR s1 G1) as (G2 & PA). pose proof (mu_path r s1 _ I1 PA) as M2. pose proof (T_r_try r s1 I1) as TR.
  unfold wp at 1. unfold wp at 1 in TR. destruct (r_try n r s1) as [s2 [b|e]]; [|apply TR]. cbn [fst] in *. apply wp_ret. apply IH; [apply TR | lia].
Qed.
Lemma t_res_release : forall r q s, Inv s -> (mu r s + 1 <= n)%nat -> wp (res_release n r q) (fun _ _ => True) (fun e _ => e <> OutOfFuel) s.
Proof.
  intros r q s I HM. unfold res_release. apply wp_bind, wp_get. apply wp_if; intros _.
  - assert (SR : forall f z, Inv z -> Inv (m_rsc r f z)) by (intros f z (G & S); split; [eapply GI_same; [| |exact G]; reflexivity | exact S]).
    apply wp_bind, wp_setr, wp_bind, wp_get, wp_bind. eapply wp_conseq with (Q := fun _ z => Inv z) (X := fun _ _ => False); [| |intros ? ? []].
    + apply wp_when; intros _; [apply wp_setr|]; auto.
    + cbv beta. intros _ z IZ. apply wp_bind, wp_setr. eapply wp_conseq; [apply T_r_try; auto | cbv beta; auto | cbv beta; intros e s' K; apply K].
  - destruct q; [apply wp_raise; discriminate|]. apply wp_bind, wp_get. apply t_release_claimers; auto.
Qed.
End Ends.
(** finitely many components wait *)
Definition finite (s : env) : Prop := exists L, sup L s.
Lemma finite_L : forall s c, finite s -> exists L, NoDup L /\ In c L /\ sup L s.
Proof.
  intros s c (L & S). exists (nodup Nat.eq_dec (c :: L)). split; [apply NoDup_nodup|]. split; [apply nodup_In; left; auto|].
  intros d N. apply nodup_In. right. apply S; auto.
Qed.
Lemma finite_step : forall l s s', lstep l s s' -> finite s -> finite s'.
Proof.
  intros l s s' H (L & S). exists (match l with LAsk c _ _ => c :: L | _ => L end).
  eapply sup_step; [|exact H|]; [destruct l; cbn; auto|]. destruct l; auto. intros d N. right. apply S; auto.
Qed.
Lemma reach_finite : forall P s, reach_p P s -> finite s.
Proof.
  intros P s (t0 & R & sv & kc & hp & y & d & F & H).
  apply (inv_runs P finite) with (s := init t0 R sv kc hp y d); auto; [|apply QI_init |].
  - intros s1 o n s2 r Q _ W E C FS. pose proof (exec_path n o s1 s2 r Q W E C) as PA. revert FS. apply (inv_path (labs s1 o) finite); auto. intros; eapply finite_step; eauto.
  - exists []. intros c N. destruct (comps_init t0 R sv kc hp y d c) as (b & st & E). rewrite E in N. destruct N; auto.
Qed.
