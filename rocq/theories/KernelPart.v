(** Two parts of a model that share no component, resource, state or store (for C76).
    One lemma per kernel function: a call that concerns one part does the same whether or not the other part is there,
    and does not touch the other part. *)
From Coq Require Import QArith Lqa List Bool Arith ZArith Lia.
From Verif Require Import Base Kernel Wp.
Import ListNotations.
Open Scope Q_scope.

Section Part.
(** the components, resources, states and stores of our part; main belongs to it *)
Variables (P PR PS PK : nat -> bool).
Hypothesis Pmain : P main = true.
Definition PQ (q : qref) : bool :=
  match q with QReq r | QClaim r => PR r | QWait st => PS st | QStore x | QFrom x | QTo x => PK x end.

(** what a component of part [b] refers to is of part [b] *)
Record comp_in (b : bool) (x : comp) : Prop := {
  ci_requests : forall r, In r (keys (c_requests x)) -> PR r = b;
  ci_claims : forall r, In r (keys (c_claims x)) -> PR r = b;
  ci_waits : forall r, In r (map fst (c_waits x)) -> PS r = b;
  ci_from : forall r, In r (c_from x) -> PK r = b;
  ci_to : forall r, In r (c_to x) -> PK r = b;
  ci_retry : forall r, In r (c_retry x) -> PR r = b;
  ci_titem : forall i, c_titem x = Some i -> P i = b;
  ci_cond : forall f, c_cond x = Some f -> forall u v, (forall st, PS st = b -> u st = v st) -> f u = f v }.

(** the events of our part in the whole model (first) and in the model of our part alone (second) *)
Definition mine (e : ev) : bool := P (e_c e).
Record paired (s t : env) (L : list (ev * ev)) : Prop := {
  pa_s : filter mine (evl s) = map fst L;
  pa_t : evl t = map snd L;
  pa_same : forall p, In p L -> e_t (snd p) = e_t (fst p) /\ e_prio (snd p) = e_prio (fst p) /\ e_c (snd p) = e_c (fst p);
  pa_order : forall p q, In p L -> In q L -> ((e_seq (fst p) < e_seq (fst q))%Z <-> (e_seq (snd p) < e_seq (snd q))%Z);
  pa_bound : forall p, In p L -> (Z.abs (e_seq (snd p)) <= seq t)%Z }.
(** s: the whole model, t: our part alone *)
Record parts (s t : env) : Prop := {
  pt_comps : forall c, P c = true -> comps t c = comps s c;
  pt_rsc : forall r, PR r = true -> rsc t r = rsc s r;
  pt_qs : forall q, PQ q = true -> qs t q = qs s q;
  pt_sval : forall r, PS r = true -> sval t r = sval s r;
  pt_kcap : forall r, PK r = true -> kcap t r = kcap s r;
  pt_kmav : forall r, PK r = true -> kmav t r = kmav s r;
  pt_in : forall c, comp_in (P c) (comps s c);
  pt_mem : forall q c, In c (map fst (qs s q)) -> P c = PQ q;
  pt_evs : exists L, paired s t L;
  pt_nodup : NoDup (map e_seq (evl s));
  pt_bound : forall e, In e (evl s) -> (Z.abs (e_seq e) <= seq s)%Z;
  pt_seq : (0 <= seq s)%Z /\ (0 <= seq t)%Z;
  pt_stby : stby s = [] /\ pend s = [] /\ stby t = [] /\ pend t = [];
  pt_off : off t = off s; pt_yl : yl t = yl s; pt_defcap : defcap t = defcap s;
  pt_eoe : eoe t = eoe s; pt_running : running t = running s; pt_ended : ended t = ended s;
  pt_cur : P (cur s) = true -> cur t = cur s /\ now t = now s }.
(** our part is on the move only if one of our components is current *)
Definition side (b : bool) (s t : env) : Prop := parts s t /\ (b = true -> P (cur s) = true).
Definition at_ (b : bool) {A} (G : A -> Prop) (m : M A) : Prop :=
  forall s t, side b s t ->
    (forall a, snd (m s) = Ok a -> G a) /\
    if b then side b (fst (m s)) (fst (m t)) /\ snd (m t) = snd (m s) else side b (fst (m s)) t.
Definition any {A} (a : A) : Prop := True.

Lemma n_bind : forall b A B (G : A -> Prop) (G' : B -> Prop) m k, at_ b G m -> (forall a, G a -> at_ b G' (k a)) -> at_ b G' (bind m k).
Proof.
  intros b A B G G' m k H K s t E. destruct (H s t E) as [Ga S1]. unfold bind. destruct (m s) as [s1 [a|e]]; cbn [fst snd] in *.
  - specialize (K a (Ga a eq_refl)). destruct b; [|exact (K s1 t S1)]. destruct (m t) as [t1 r]. cbn [fst snd] in *. destruct S1 as [S1 ->]. exact (K s1 t1 S1).
  - split; [discriminate|]. destruct b; auto. destruct (m t) as [t1 r]. cbn [fst snd] in *. destruct S1 as [S1 ->]. auto.
Qed.
Lemma n_conseq : forall b A (G G' : A -> Prop) m, at_ b G m -> (forall a, G a -> G' a) -> at_ b G' m.
Proof. intros b A G G' m H I s t E. destruct (H s t E) as [H1 H2]. split; auto. Qed.
Lemma n_ret : forall b A (G : A -> Prop) a, G a -> at_ b G (ret a).
Proof. intros b A G a H s t E. cbn. split; [congruence|]. destruct b; auto. Qed.
Lemma n_raise : forall b A (G : A -> Prop) e, at_ b G (@raise A e).
Proof. intros b A G e s t E. cbn. split; [congruence|]. destruct b; auto. Qed.
Lemma n_get : forall b A (G : A -> Prop) f, (forall s t, side b s t -> G (f s) /\ (b = true -> f t = f s)) -> at_ b G (get f).
Proof. intros b A G f H s t E. destruct (H s t E) as [H1 H2]. cbn. split; [congruence|]. destruct b; auto. rewrite H2; auto. Qed.
Lemma n_put : forall b f, (forall s t, side b s t -> side b (f s) (if b then f t else t)) -> at_ b any (put f).
Proof. intros b f H s t E. cbn. split; [intros; exact Logic.I|]. specialize (H s t E). destruct b; auto. Qed.
Lemma n_when : forall b x m, at_ b any m -> at_ b any (when x m).
Proof. intros b [] m H; cbn; auto. apply n_ret. exact Logic.I. Qed.
Lemma n_if : forall b A (G : A -> Prop) (x : bool) m1 m2, at_ b G m1 -> at_ b G m2 -> at_ b G (if x then m1 else m2).
Proof. intros b A G []; auto. Qed.
Lemma n_mfor : forall b A (l : list A) f, (forall x, In x l -> at_ b any (f x)) -> at_ b any (mfor l f).
Proof.
  induction l; intros f H; cbn; [apply n_ret; exact Logic.I|]. apply (n_bind b _ _ any); [apply H; left; auto|]. intros _ _. apply IHl. intros. apply H. right; auto.
Qed.

(** the pairing depends on the two event lists and the second sequence number only *)
Lemma paired_eq : forall s t s' t' L, paired s t L -> evl s' = evl s -> evl t' = evl t -> seq t' = seq t -> paired s' t' L.
Proof. intros s t s' t' L [] E1 E2 E3. constructor; try congruence; auto. rewrite E3; auto. Qed.
Ltac sidego :=
  let s := fresh "s" in let t := fresh "t" in let S := fresh "S" in let C := fresh "C" in intros s t [S C].

Lemma n_setc : forall b c f, P c = b -> (forall x, comp_in b x -> comp_in b (f x)) -> at_ b any (setc c f).
Proof.
  intros b c f Pc F. apply n_put. intros s t [[] C]. split; [|exact C].
  assert (I : forall x, comp_in (P x) (upd (comps s) c (f (comps s c)) x)).
  { intros x. unfold upd. destruct (Nat.eqb_spec x c) as [->|]; auto. rewrite Pc. apply F. rewrite <- Pc. auto. }
  destruct b; (constructor; cbn; auto; [| destruct pt_evs0 as [L PL]; exists L; eapply paired_eq; eauto]).
  - intros x Px. unfold upd. destruct (Nat.eqb_spec x c) as [->|]; auto. rewrite pt_comps0; auto.
  - intros x Px. unfold upd. destruct (Nat.eqb_spec x c) as [->|]; auto. congruence.
Qed.
Lemma n_setr : forall b r f, PR r = b -> at_ b any (setr r f).
Proof.
  intros b r f Pc. apply n_put. intros s t [[] C]. split; [|exact C].
  destruct b; (constructor; cbn; auto; [| destruct pt_evs0 as [L PL]; exists L; eapply paired_eq; eauto]).
  - intros x Px. unfold upd. destruct (Nat.eqb_spec x r) as [->|]; auto. rewrite pt_rsc0; auto.
  - intros x Px. unfold upd. destruct (Nat.eqb_spec x r) as [->|]; auto. congruence.
Qed.
Lemma qeqb_iff : forall a b, qeqb a b = true <-> a = b.
Proof. intros [] []; cbn; try (split; congruence); rewrite Nat.eqb_eq; split; congruence. Qed.
Lemma n_setq : forall b q f, PQ q = b -> (forall l c, In c (map fst (f l)) -> In c (map fst l) \/ P c = b) -> at_ b any (put (m_q q f)).
Proof.
  intros b q f Pc F. apply n_put. intros s t [[] C]. split; [|exact C].
  assert (I : forall x c, In c (map fst (if qeqb x q then f (qs s q) else qs s x)) -> P c = PQ x).
  { intros x c. destruct (qeqb x q) eqn:E; auto. apply qeqb_iff in E. subst x. intros H. destruct (F _ _ H); auto. congruence. }
  destruct b; (constructor; cbn; auto; [| destruct pt_evs0 as [L PL]; exists L; eapply paired_eq; eauto]).
  - intros x Px. destruct (qeqb x q) eqn:E; auto. rewrite pt_qs0; auto.
  - intros x Px. destruct (qeqb x q) eqn:E; auto. apply qeqb_iff in E. congruence.
Qed.
Lemma n_fieldc : forall b A (g : comp -> A) (G : A -> Prop) c, P c = b -> (forall x, comp_in b x -> G (g x)) -> at_ b G (get (fun s => g (comps s c))).
Proof.
  intros b A g G c Pc F. apply n_get. intros s t [S C]. split; [apply F; rewrite <- Pc; apply S|]. intros ->. rewrite (pt_comps _ _ S); auto.
Qed.
Lemma n_stat : forall b c, P c = b -> at_ b any (stat c).
Proof. intros. apply (n_fieldc b _ c_status any); auto. intros. exact Logic.I. Qed.
Lemma n_fieldr : forall b A (g : resource -> A) r, PR r = b -> at_ b any (get (fun s => g (rsc s r))).
Proof. intros b A g c Pc. apply n_get. intros s t [S C]. split; [exact Logic.I|]. intros ->. rewrite (pt_rsc _ _ S); auto. Qed.
Definition members (b : bool) (l : list (nat * xq)) : Prop := forall c, In c (map fst l) -> P c = b.
Lemma n_getq : forall b q, PQ q = b -> at_ b (members b) (get (fun s => qs s q)).
Proof. intros b q Pc. apply n_get. intros s t [S C]. split; [intros c I; rewrite <- Pc; apply (pt_mem _ _ S); auto|]. intros ->. apply (pt_qs _ _ S); auto. Qed.
(** a function of what is the same for everybody *)
Lemma n_now : at_ true any (get now).
Proof. apply n_get. intros s t [S C]. split; [exact Logic.I|]. intros E. apply (pt_cur _ _ S); auto. Qed.
Lemma n_any : forall A (f : env -> A), at_ false any (get f).
Proof. intros A f. apply n_get. intros. split; [exact Logic.I | discriminate]. Qed.
Lemma n_get_now : forall b A (g : Q -> A), at_ b any (get (fun s => g (now s))).
Proof. intros b A g. apply n_get. intros s t [S C]. split; [exact Logic.I|]. intros E. destruct (pt_cur _ _ S) as [_ ->]; auto. Qed.

(** ** event list *)
Lemma ev_del_filter : forall c l, P c = true -> match ev_del c l with Some l' => ev_del c (filter mine l) = Some (filter mine l') | None => ev_del c (filter mine l) = None end.
Proof.
  intros c l Pc. induction l as [|e l IH]; cbn; auto. destruct (Nat.eqb_spec (e_c e) c) as [E|E].
  - replace (mine e) with true by (unfold mine; rewrite E; auto). cbn. rewrite E, Nat.eqb_refl. auto.
  - assert (N : Nat.eqb (e_c e) c = false) by (apply Nat.eqb_neq; auto). destruct (ev_del c l) as [l'|]; cbn [filter]; destruct (mine e); cbn; rewrite ?N, ?IH; auto.
Qed.
Lemma ev_del_other : forall c l l', P c = false -> ev_del c l = Some l' -> filter mine l' = filter mine l.
Proof.
  intros c. induction l as [|e l IH]; cbn; intros l' Pc H; [discriminate|]. destruct (Nat.eqb_spec (e_c e) c) as [E|E].
  - injection H as <-. replace (mine e) with false by (unfold mine; rewrite E; auto). auto.
  - destruct (ev_del c l) as [l1|]; [|discriminate]. injection H as <-. cbn. rewrite (IH l1); auto.
Qed.
Lemma ev_del_pairs : forall c L, (forall p, In p L -> e_c (snd p) = e_c (fst p)) ->
  match ev_del c (map fst L) with
  | Some l => exists L', l = map fst L' /\ ev_del c (map snd L) = Some (map snd L') /\ forall p, In p L' -> In p L
  | None => ev_del c (map snd L) = None
  end.
Proof.
  intros c. induction L as [|p L IH]; cbn; intros H; auto. rewrite (H p (or_introl eq_refl)). destruct (Nat.eqb (e_c (fst p)) c).
  - exists L. auto.
  - specialize (IH (fun q I => H q (or_intror I))). destruct (ev_del c (map fst L)) as [l|].
    + destruct IH as (L' & -> & -> & I). exists (p :: L'). cbn. repeat split; auto. intros q [->|Hq]; auto.
    + rewrite IH. auto.
Qed.
Lemma ev_del_keep : forall c l l', ev_del c l = Some l' -> (forall e, In e l' -> In e l) /\ (NoDup (map e_seq l) -> NoDup (map e_seq l')).
Proof.
  intros c. induction l as [|e l IH]; cbn; intros l' H; [discriminate|]. destruct (Nat.eqb (e_c e) c).
  - injection H as <-. split; auto. intros N. inversion N; auto.
  - destruct (ev_del c l) as [l1|]; [|discriminate]. injection H as <-. destruct (IH l1 eq_refl) as [I1 I2]. split.
    + intros x [->|X]; [left; auto | right; auto].
    + cbn. intros N. inversion N as [|? ? A B]; subst. constructor; auto. intros C. apply A. apply in_map_iff in C. destruct C as (x & X1 & X2).
      apply in_map_iff. exists x. auto.
Qed.

Lemma n_remove : forall b c, P c = b -> at_ b any (remove c).
Proof.
  intros b c Pc. unfold remove. apply (n_bind b _ _ any); [apply (n_fieldc b _ c_onev any); auto; intros; exact Logic.I|]. intros o _. destruct o.
  - intros s t E. unfold bind, get, put, setc, raise. cbn [fst snd]. destruct E as [S C]. pose proof S as []. destruct pt_evs0 as (L & PL). pose proof PL as [].
    assert (SC : forall u v, parts u v -> (b = true -> P (cur u) = true) ->
      if b then side b (m_comp c (w_onev false) u) (m_comp c (w_onev false) v) else side b (m_comp c (w_onev false) u) v).
    { intros u v UV CU. pose proof (n_setc b c (w_onev false) Pc) as K. destruct (K ltac:(intros x []; constructor; cbn; auto) u v (conj UV CU)) as [_ K2].
      unfold setc, put in K2. cbn in K2. destruct b; auto. apply K2. }
    destruct (ev_del c (evl s)) as [l'|] eqn:D.
    + destruct (ev_del_keep _ _ _ D) as [D1 D2]. split; [intros; exact Logic.I|]. cbn [fst snd]. destruct b.
      * pose proof (ev_del_filter c (evl s) Pc) as F. rewrite D, pa_s0 in F. pose proof (ev_del_pairs c L) as G. rewrite F in G.
        destruct G as (L' & G1 & G2 & G3); [intros p I; apply pa_same0; auto|]. rewrite pa_t0, G2. cbn [fst snd]. split; auto. apply SC; auto.
        constructor; cbn; auto. exists L'. constructor; cbn; auto.
      * apply SC; auto. constructor; cbn; auto. exists L. constructor; cbn; auto. rewrite (ev_del_other c _ _ Pc D). auto.
    + split; [discriminate|]. destruct b; [|split; auto].
      pose proof (ev_del_filter c (evl s) Pc) as F. rewrite D, pa_s0 in F. pose proof (ev_del_pairs c L) as G. rewrite F in G.
      rewrite pa_t0, G; [|intros p I; apply pa_same0; auto]. cbn. split; auto. split; auto.
  - apply (n_bind b _ _ any); [apply n_stat; auto|]. intros st _. apply n_when. apply (n_bind b _ _ any).
    + apply n_put. intros s t [[] C]. destruct pt_stby0 as (S1 & S2 & S3 & S4). split; [|exact C].
      destruct b; (constructor; cbn; auto; [destruct pt_evs0 as [L PL]; exists L; eapply paired_eq; eauto | rewrite ?S1, ?S2, ?S3, ?S4; auto]).
    + intros _ _. apply n_put. intros s t [[] C]. destruct pt_stby0 as (S1 & S2 & S3 & S4). split; [|exact C].
      destruct b; (constructor; cbn; auto; [destruct pt_evs0 as [L PL]; exists L; eapply paired_eq; eauto | rewrite ?S1, ?S2, ?S3, ?S4; auto]).
Qed.
Lemma n_push : forall b c q p u, P c = b -> at_ b any (push c q p u).
Proof.
  intros b c q p u Pc. unfold push. destruct q as [q|]; [|apply n_ret; exact Logic.I].
  intros s t [S C]. split; [intros; exact Logic.I|]. unfold bind, get, put, setc. cbn [fst snd].
  pose proof S as []. destruct pt_evs0 as (L & []). destruct pt_seq0 as [Q1 Q2].
  set (ns := if u then (- (seq s + 1))%Z else (seq s + 1)%Z). set (nt := if u then (- (seq t + 1))%Z else (seq t + 1)%Z).
  assert (AS : (Z.abs ns <= seq s + 1)%Z) by (unfold ns; destruct u; lia). assert (AT : (Z.abs nt <= seq t + 1)%Z) by (unfold nt; destruct u; lia).
  assert (I : forall x, comp_in (P x) (upd (comps s) c (w_onev true (comps s c)) x)).
  { intros x. unfold upd. destruct (Nat.eqb_spec x c) as [->|]; auto. destruct (pt_in0 c). constructor; cbn; auto. }
  assert (ND : NoDup (map e_seq (evl s ++ [mkEv q p ns c]))).
  { rewrite map_app. cbn. apply (NoDup_Add (a := ns) (l := map e_seq (evl s))).
    - replace (map e_seq (evl s) ++ [ns]) with (map e_seq (evl s) ++ ns :: []) by auto.
      pose proof (Add_app ns (map e_seq (evl s)) []) as K. rewrite app_nil_r in K. exact K.
    - split; auto. intros H. apply in_map_iff in H. destruct H as (e & E1 & E2). specialize (pt_bound0 e E2). rewrite E1 in pt_bound0. unfold ns in pt_bound0. destruct u; lia. }
  assert (BD : forall e, In e (evl s ++ [mkEv q p ns c]) -> (Z.abs (e_seq e) <= seq s + 1)%Z).
  { intros e H. apply in_app_or in H. destruct H as [H|[<-|[]]]; [specialize (pt_bound0 e H); lia | exact AS]. }
  destruct b.
  - split; auto. split; [|exact C]. constructor; cbn; auto; try lia.
    + intros x Px. unfold upd. destruct (Nat.eqb_spec x c) as [->|]; auto. rewrite pt_comps0; auto.
    + exists (L ++ [(mkEv q p ns c, mkEv q p nt c)]). constructor; cbn.
      * rewrite filter_app, map_app, pa_s0. cbn. unfold mine. cbn. rewrite Pc. auto.
      * rewrite map_app, pa_t0. auto.
      * intros x H. apply in_app_or in H. destruct H as [H|[<-|[]]]; auto.
      * assert (X : forall x, In x L -> (Z.abs (e_seq (fst x)) <= seq s)%Z /\ (Z.abs (e_seq (snd x)) <= seq t)%Z).
        { intros x H. split; auto. apply pt_bound0. assert (K : In (fst x) (filter mine (evl s))) by (rewrite pa_s0; apply in_map; auto). apply filter_In in K. tauto. }
        intros x y Hx Hy. apply in_app_or in Hx, Hy. destruct Hx as [Hx|[<-|[]]], Hy as [Hy|[<-|[]]]; auto; cbn; unfold ns, nt;
          repeat match goal with H : In ?z L |- _ => pose proof (X z H); clear H end; destruct u; lia.
      * intros x H. apply in_app_or in H. destruct H as [H|[<-|[]]]; cbn; auto. specialize (pa_bound0 x H). lia.
  - split; [|exact C]. constructor; cbn; auto; try lia.
    + intros x Px. unfold upd. destruct (Nat.eqb_spec x c) as [->|]; auto. congruence.
    + exists L. constructor; cbn; auto. rewrite filter_app, pa_s0. cbn. unfold mine. cbn. rewrite Pc, app_nil_r. auto.
Qed.

(** ** tactics *)
Definition inr (b : bool) {A} (l : list (nat * A)) : Prop := forall r, In r (keys l) -> PR r = b.
Definition ins_ (b : bool) {A} (l : list (nat * A)) : Prop := forall r, In r (map fst l) -> PS r = b.
Definition inl_ (b : bool) (l : list nat) : Prop := forall r, In r l -> PR r = b.
Definition ino (b : bool) (o : option nat) : Prop := forall i, o = Some i -> P i = b.
Lemma n_requests : forall b c, P c = b -> at_ b (inr b) (get (fun s => c_requests (comps s c))).
Proof. intros. apply (n_fieldc b _ c_requests); auto. intros x []. auto. Qed.
Lemma n_claims : forall b c, P c = b -> at_ b (inr b) (get (fun s => c_claims (comps s c))).
Proof. intros. apply (n_fieldc b _ c_claims); auto. intros x []. auto. Qed.
Lemma n_waits : forall b c, P c = b -> at_ b (ins_ b) (get (fun s => c_waits (comps s c))).
Proof. intros. apply (n_fieldc b _ c_waits); auto. intros x []. auto. Qed.
Definition ink (b : bool) (l : list nat) : Prop := forall r, In r l -> PK r = b.
Lemma n_from : forall b c, P c = b -> at_ b (ink b) (get (fun s => c_from (comps s c))).
Proof. intros. apply (n_fieldc b _ c_from); auto. intros x []. auto. Qed.
Lemma n_to : forall b c, P c = b -> at_ b (ink b) (get (fun s => c_to (comps s c))).
Proof. intros. apply (n_fieldc b _ c_to); auto. intros x []. auto. Qed.
Lemma n_retry : forall b c, P c = b -> at_ b (inl_ b) (get (fun s => c_retry (comps s c))).
Proof. intros. apply (n_fieldc b _ c_retry); auto. intros x []. auto. Qed.
Lemma n_titem : forall b c, P c = b -> at_ b (ino b) (get (fun s => c_titem (comps s c))).
Proof. intros. apply (n_fieldc b _ c_titem); auto. intros x []. auto. Qed.
Ltac ninfer :=
  match goal with
  | H : inr _ ?l, I : In ?r (keys ?l) |- PR ?r = _ => exact (H _ I)
  | H : inr _ ?l, I : In ?p ?l |- PR (fst ?p) = _ => exact (H _ (in_map fst _ _ I))
  | H : inl_ _ ?l, I : In ?r ?l |- PR ?r = _ => exact (H _ I)
  | H : ink _ ?l, I : In ?r ?l |- PK ?r = _ => exact (H _ I)
  | H : ins_ _ ?l, I : In ?r (map fst ?l) |- PS ?r = _ => exact (H _ I)
  | H : members _ ?l, I : In ?c (map fst ?l) |- P ?c = _ => exact (H _ I)
  | H : ino _ (Some ?c) |- P ?c = _ => exact (H _ eq_refl)
  end.
Ltac nside E := match type of E with ?b = true => transitivity b; [solve [auto with nn] | exact E] end.
Ltac nget :=
  apply n_get; let s := fresh "s" in let t := fresh "t" in let S := fresh "S" in let C := fresh "C" in let E := fresh "E" in
  intros s t [S C]; split; [exact Logic.I|]; intros E; unfold capped;
  rewrite ?(pt_off _ _ S), ?(pt_yl _ _ S), ?(pt_defcap _ _ S), ?(pt_eoe _ _ S), ?(proj1 (pt_cur _ _ S (C E))), ?(proj2 (pt_cur _ _ S (C E)));
  repeat first [rewrite (pt_comps _ _ S) by (nside E) | rewrite (pt_rsc _ _ S) by (nside E) | rewrite (pt_qs _ _ S) by (nside E)
    | rewrite (pt_sval _ _ S) by (nside E) | rewrite (pt_kcap _ _ S) by (nside E) | rewrite (pt_kmav _ _ S) by (nside E)];
  reflexivity.
Ltac nset := apply n_setc; [solve [auto with nn] | let x := fresh "x" in let H := fresh "H" in intros x H; destruct H; constructor; cbn; auto; try discriminate; try solve [let F := fresh in intros ? F; match type of F with False => destruct F end]].
Ltac nstep :=
  lazymatch goal with
  | |- at_ _ _ (bind (get (fun s => c_requests (comps s _))) _) => eapply n_bind; [apply n_requests; solve [auto with nn] | intros ? ?]
  | |- at_ _ _ (bind (get (fun s => c_claims (comps s _))) _) => eapply n_bind; [apply n_claims; solve [auto with nn] | intros ? ?]
  | |- at_ _ _ (bind (get (fun s => c_waits (comps s _))) _) => eapply n_bind; [apply n_waits; solve [auto with nn] | intros ? ?]
  | |- at_ _ _ (bind (get (fun s => c_from (comps s _))) _) => eapply n_bind; [apply n_from; solve [auto with nn] | intros ? ?]
  | |- at_ _ _ (bind (get (fun s => c_to (comps s _))) _) => eapply n_bind; [apply n_to; solve [auto with nn] | intros ? ?]
  | |- at_ _ _ (bind (get (fun s => c_retry (comps s _))) _) => eapply n_bind; [apply n_retry; solve [auto with nn] | intros ? ?]
  | |- at_ _ _ (bind (get (fun s => c_titem (comps s _))) _) => eapply n_bind; [apply n_titem; solve [auto with nn] | intros ? ?]
  | |- at_ _ _ (bind (get (fun s => qs s _)) _) => eapply n_bind; [apply n_getq; solve [auto with nn] | intros ? ?]
  | |- at_ _ _ (bind _ _) => apply (n_bind _ _ _ any); [| intros ? _]
  | |- at_ _ any (ret _) => apply n_ret; exact Logic.I
  | |- at_ _ _ (raise _) => apply n_raise
  | |- at_ _ any (get _) => nget
  | |- at_ _ any (setc _ _) => nset
  | |- at_ _ any (setr _ _) => apply n_setr; auto with nn
  | |- at_ _ any (stat _) => apply n_stat; auto with nn
  | |- at_ _ any (when _ _) => apply n_when
  | |- at_ _ any (mfor _ _) => apply n_mfor; intros
  | |- at_ _ any (match ?x with _ => _ end) => first [apply n_if | destruct x]
  end; cbv beta.
Ltac ng := repeat nstep; auto with nn.
Hint Resolve n_remove n_push : nn.
Hint Extern 2 (PQ _ = _) => cbn [PQ] : nn.
Hint Extern 3 (PR _ = _) => ninfer : nn.
Hint Extern 3 (PK _ = _) => ninfer : nn.
Hint Extern 3 (PS _ = _) => ninfer : nn.
Hint Extern 3 (P _ = _) => ninfer : nn.

Lemma in_ins_sorted : forall c p l x, In x (map fst (ins_sorted c p l)) -> In x (map fst l) \/ x = c.
Proof.
  intros c p l x. assert (T : forall l, In x (map fst (ins_tail c p l)) -> In x (map fst l) \/ x = c).
  { induction l0 as [|y t IH]; cbn [ins_tail]; [cbn; intros [->|[]]; auto|]. destruct (forallb _ _); cbn; [intros [->|H]; auto | intros [->|H]; auto]. destruct (IH H); auto. }
  unfold ins_sorted. destruct l as [|y t]; [cbn; intros [->|[]]; auto|]. destruct (xltb p (snd y)); auto. cbn. intros [->|H]; auto.
Qed.
Lemma in_ins_at : forall c w l x, In x (map fst (ins_at c w l)) -> In x (map fst l) \/ x = c.
Proof.
  intros c w l x. destruct w; cbn [ins_at].
  - apply in_ins_sorted.
  - rewrite map_app, in_app_iff. cbn. intuition.
  - cbn. intuition.
  - induction l as [|[y p] t IH]; cbn; auto. destruct (Nat.eqb x0 y); cbn; intuition.
  - induction l as [|[y p] t IH]; cbn; auto. destruct (Nat.eqb x0 y); cbn; intuition.
Qed.
Lemma in_adel : forall A c (l : list (nat * A)) x, In x (map fst (adel c l)) -> In x (map fst l).
Proof. intros A c l x H. apply in_map_iff in H. destruct H as (p & <- & H). apply filter_In in H. apply in_map. tauto. Qed.
Lemma n_q_enter : forall b q c p, PQ q = b -> P c = b -> at_ b any (q_enter q c p).
Proof.
  intros. unfold q_enter. ng. apply n_setq; auto. intros l x I. destruct (in_ins_sorted _ _ _ _ I); [auto | subst; auto].
Qed.
Lemma n_q_leave : forall b q c, PQ q = b -> at_ b any (q_leave q c).
Proof. intros. unfold q_leave. ng. apply n_setq; auto. intros l x I. left. eapply in_adel; eauto. Qed.
Lemma n_q_prio : forall b q c, PQ q = b -> at_ b any (q_prio q c).
Proof. intros. unfold q_prio. ng. Qed.
Hint Resolve n_q_enter n_q_leave n_q_prio : nn.
Lemma n_reschedule : forall b c q p u cap, P c = b -> at_ b any (reschedule c q p u cap).
Proof. intros. unfold reschedule. ng. Qed.
Hint Resolve n_reschedule : nn.
Lemma n_leave_req : forall b c r, PR r = b -> at_ b any (leave_req c r).
Proof. intros. unfold leave_req. ng. Qed.
Hint Resolve n_leave_req : nn.
Lemma n_check_fail : forall b c, P c = b -> at_ b any (check_fail c).
Proof. intros. unfold check_fail. ng. Qed.
Hint Resolve n_check_fail : nn.
Lemma n_notdata : forall b c, P c = b -> at_ b any (check_notdata c). Proof. intros. unfold check_notdata. ng. Qed.
Lemma n_notmain : forall b c, at_ b any (check_notmain c). Proof. intros. unfold check_notmain. ng. Qed.
Hint Resolve n_notdata n_notmain : nn.
Lemma n_activate : forall b c a d p u pr kr kw cap, P c = b -> at_ b any (activate c a d p u pr kr kw cap).
Proof. intros. unfold activate. ng. Qed.
Lemma n_create : forall b c a d p u sk cap, P c = b -> at_ b any (create c a d p u sk cap).
Proof. intros. unfold create. ng. Qed.
Lemma n_hold : forall b c sp p u i cap, P c = b -> at_ b any (hold c sp p u i cap).
Proof. intros. unfold hold. ng. Qed.
Lemma n_passivate : forall b c, P c = b -> at_ b any (passivate c).
Proof. intros. unfold passivate. ng. Qed.
Lemma n_interrupt : forall b c, P c = b -> at_ b any (interrupt c).
Proof. intros. unfold interrupt. ng. Qed.
Lemma n_resume : forall b c al p u, P c = b -> at_ b any (resume c al p u).
Proof. intros. unfold resume. ng. Qed.
Lemma n_set_remaining : forall b c v p u, P c = b -> at_ b any (set_remaining c v p u).
Proof. intros. unfold set_remaining. ng. Qed.
Lemma n_fail_time : forall b sp, at_ b any (fail_time sp).
Proof. intros. unfold fail_time. ng. Qed.
Hint Resolve n_activate n_fail_time : nn.
(** resources *)
Lemma n_honor_one : forall b c r q, P c = b -> PR r = b -> at_ b any (honor_one c r q).
Proof. intros. unfold honor_one. ng. Qed.
Hint Resolve n_honor_one : nn.
Lemma inr_cons : forall b A (r : nat) (q : A) t, inr b ((r, q) :: t) -> PR r = b /\ inr b t.
Proof. intros b A r q t H. split; [apply H; left; auto | intros x I; apply H; right; auto]. Qed.
Lemma n_honor_all : forall b c, P c = b -> at_ b any (honor_all c).
Proof.
  assert (F : forall b c rq, P c = b -> inr b rq -> at_ b any (honor_all_from c rq)).
  { induction rq as [|[r q] t IH]; intros; cbn; [ng|]. destruct (inr_cons _ _ _ _ _ H0). ng. }
  intros. unfold honor_all. ng.
Qed.
Lemma n_honor_any : forall b c, P c = b -> at_ b any (honor_any c).
Proof.
  assert (F : forall b c rq, P c = b -> inr b rq -> at_ b any (honor_any_from c rq)).
  { induction rq as [|[r q] t IH]; intros; cbn; [ng|]. destruct (inr_cons _ _ _ _ _ H0). ng. }
  intros. unfold honor_any. ng.
Qed.
Lemma in_aset : forall b A r (v : A) l, PR r = b -> inr b l -> inr b (aset r v l).
Proof. intros b A r v l H I x X. apply keys_aset_in in X. destruct X as [->|X]; auto. Qed.
Lemma n_claim : forall b c r q, P c = b -> PR r = b -> at_ b any (claim c r q).
Proof. intros. unfold claim. ng. apply in_aset; auto. Qed.
Hint Resolve n_honor_all n_honor_any n_claim : nn.
Lemma filter_same : forall A (f g : A -> bool) l, (forall x, In x l -> f x = g x) -> filter f l = filter g l.
Proof. induction l; cbn; intros H; auto. rewrite (H a (or_introl eq_refl)), IHl; auto. Qed.
Lemma n_c_try : forall b rt c, P c = b -> (forall r, PR r = b -> at_ b any (rt r)) -> at_ b any (c_try rt c).
Proof.
  intros. unfold c_try. nstep; [ng|]. nstep; [ng|]. nstep; [ng|]. nstep; [ng|]. destruct a1; [ng|]. nstep.
  eapply (n_bind _ _ _ (inl_ b)).
  { apply n_get. intros s t [S C]. split.
    - intros r I. apply filter_In in I. apply H1. tauto.
    - intros E. apply filter_same. intros x X. rewrite (pt_rsc _ _ S); auto. rewrite <- E. apply H1; auto. }
  intros an AN. ng.
Qed.
Lemma in_qnext : forall c l x p, qnext c l = Some (x, p) -> In x (map fst l).
Proof.
  induction l as [|[y q] t IH]; cbn; intros x p E; [discriminate|]. destruct (Nat.eqb c y); [|right; eapply IH; eauto].
  destruct t as [|z t]; [discriminate|]. injection E as ->. right. left. auto.
Qed.
Lemma n_rloop : forall b ct r an first p1, PR r = b -> (forall c, P c = b -> at_ b any (ct c)) ->
  forall n mx, (forall c p, mx = Some (c, p) -> P c = b) -> at_ b any (rloop ct n r an first p1 mx).
Proof.
  intros b ct r an first p1 Hr Hc. induction n; intros mx M; cbn; destruct mx as [[c p]|]; try solve [ng].
  nstep; [ng|]. nstep; [ng|]. nstep; [ng|]. nstep; [ng|]. nstep. nstep; [|ng]. nstep; [apply Hc; eapply M; eauto|]. nstep.
  apply IHn. intros c1 q1 E. destruct (an && negb (inq c a2)).
  - destruct a2 as [|y a2]; [discriminate|]. injection E as ->. apply H0. left; auto.
  - apply H. eapply in_qnext; eauto.
Qed.
Lemma n_hd : forall b l c p, members b l -> hd_error l = Some (c, p) -> P c = b.
Proof. intros b [|y l] c p M E; [discriminate|]. injection E as ->. apply M. left; auto. Qed.
Lemma n_r_try : forall n b r, PR r = b -> at_ b any (r_try n r).
Proof.
  induction n; intros b r Pr; cbn; [ng|]. nstep; [ng|]. nstep. 
  assert (L : forall x first p1, at_ b any (rloop (c_try (r_try n)) n r x first p1 (hd_error a0))).
  { intros. apply n_rloop; auto; [|intros; eapply n_hd; eauto]. intros c Pc. apply n_c_try; auto. }
  ng.
Qed.
Hint Resolve n_r_try n_c_try : nn.
Lemma n_release1 : forall b n c r q x, P c = b -> PR r = b -> at_ b any (release1 n c r q x).
Proof.
  intros. unfold release1. ng; [apply in_aset; auto|]. intros r0 I. apply keys_adel_in in I. apply ci_claims0; tauto.
Qed.
Hint Resolve n_release1 : nn.
Lemma n_release : forall b n c a, P c = b -> (forall x, In x a -> PR (fst x) = b) -> at_ b any (release n c a).
Proof. intros. unfold release. destruct a as [|x a]; [ng|]. remember (x :: a) as l. clear Heql. ng. Qed.
Lemma n_release_claimers : forall f b r, PR r = b -> forall n mx, (forall c p, mx = Some (c, p) -> P c = b) -> at_ b any (release_claimers f n r mx).
Proof.
  intros f b r Pr. induction n; intros mx M; cbn [release_claimers]; destruct mx as [[c p]|]; try solve [ng].
  nstep. nstep; [|ng]. nstep.
  - apply n_release; [eapply M; eauto|]. intros x [<-|[]]; auto.
  - apply IHn. intros c1 q1 E. apply H. eapply in_qnext; eauto.
Qed.
Lemma n_res_release : forall b f r q, PR r = b -> at_ b any (res_release f r q).
Proof.
  intros. unfold res_release. nstep; [ng|]. nstep; [ng|]. destruct q; [ng|]. nstep. apply n_release_claimers; auto. intros. eapply n_hd; eauto.
Qed.
Lemma n_set_cap : forall b f r cap, PR r = b -> at_ b any (set_cap f r cap).
Proof. intros. unfold set_cap. ng. Qed.
Lemma n_cancel : forall b f c, P c = b -> at_ b any (cancel f c).
Proof. intros. unfold cancel. ng. Qed.
Lemma in_bump : forall q p l av c, In c (fst (bump_candidates q p av l)) -> In c (map fst l).
Proof.
  induction l as [|[x px] l IH]; intros av c; cbn [bump_candidates map]; [cbn; tauto|]. destruct (xleb (Fin q) av); [cbn; tauto|]. destruct (xleb px p); [cbn; tauto|].
  specialize (IH (xaddq av 0) c). destruct (bump_candidates q p (xaddq av 0) l). cbn in *. intuition.
Qed.
Lemma n_request1 : forall b n c m a, P c = b -> PR (fst (fst a)) = b -> at_ b any (request1 n c m a).
Proof.
  intros b n c m [[r q] p] Pc Pr. unfold request1. cbn [fst] in Pr. nstep; [ng|]. nstep; [ng|]. nstep; [ng|]. nstep.
  { ng. apply in_aset; auto. }
  nstep; [ng|]. nstep. nstep; [ng|]. nstep. pose proof (in_bump q p (rev a5) a4) as I. destruct (bump_candidates q p a4 (rev a5)) as [cs av]. cbn [fst] in I.
  assert (CS : forall c, In c cs -> P c = b). { intros x X. apply H. apply I in X. rewrite map_rev in X. apply in_rev in X. auto. }
  nstep. nstep. specialize (CS x H0). ng.
Qed.
Hint Resolve n_request1 : nn.
Lemma n_request : forall b n c a o f p u cap, P c = b -> (forall x, In x a -> PR (fst (fst x)) = b) -> at_ b any (request n c a o f p u cap).
Proof.
  intros. unfold request. nstep; [ng|]. nstep; [ng|]. nstep; [ng|]. nstep; [ng|]. nstep; [ng|]. destruct a as [|x a]; [ng|].
  remember (x :: a) as l. clear Heql. ng.
Qed.
(** states *)
Lemma n_c_trywait : forall b c, P c = b -> at_ b any (c_trywait c).
Proof.
  intros. unfold c_trywait, leave_wait. nstep; [ng|]. nstep; [ng|]. nstep.
  { apply n_get. intros s t [S C]. split; [exact Logic.I|]. intros E. rewrite (pt_comps _ _ S) by congruence. pose proof (pt_in _ _ S c) as I. rewrite H, E in I. destruct I.
    assert (SV : forall r, PS r = true -> sval t r = sval s r) by apply S. unfold wait_ok. destruct (c_cond (comps s c)) as [f|].
    - apply (ci_cond0 f); auto.
    - assert (K : forall w, In w (c_waits (comps s c)) -> snd w (sval t (fst w)) = snd w (sval s (fst w))).
      { intros w W. rewrite SV; auto. apply ci_waits0. apply in_map; auto. }
      revert K. generalize (c_waits (comps s c)). intros ws K. clear - K. destruct (c_wall (comps s c)); induction ws as [|w ws IH]; cbn; auto;
        rewrite (K w (or_introl eq_refl)), IH; auto; intros; apply K; right; auto. }
  ng.
Qed.
Hint Resolve n_c_trywait : nn.
Lemma n_s_trywait : forall b l m, (forall c, In c l -> P c = b) -> at_ b any (s_trywait l m).
Proof.
  induction l as [|c l IH]; intros m H; cbn; [ng|]. assert (P c = b) by (apply H; left; auto). assert (forall c, In c l -> P c = b) by (intros; apply H; right; auto). ng.
Qed.
Lemma n_set_sval : forall b st v, PS st = b -> at_ b any (set_sval st v).
Proof.
  intros b st v Ps. unfold set_sval. apply n_put. intros s t [[] C]. split; [|exact C].
  destruct b; (constructor; cbn; auto; [| destruct pt_evs0 as [L PL]; exists L; eapply paired_eq; eauto]).
  - intros x Px. unfold upd. destruct (Nat.eqb_spec x st) as [->|]; auto.
  - intros x Px. unfold upd. destruct (Nat.eqb_spec x st) as [->|]; auto. congruence.
Qed.
Lemma n_st_trywait : forall b st m, PS st = b -> at_ b any (st_trywait st m).
Proof.
  intros. unfold st_trywait. eapply n_bind with (G := fun l => forall c, In c l -> P c = b).
  - apply n_get. intros s t [S C]. split; [intros c I; rewrite (pt_mem _ _ S _ _ I); cbn; auto|]. intros E. rewrite (pt_qs _ _ S); auto. cbn; congruence.
  - intros l L. apply n_s_trywait; auto.
Qed.
Hint Resolve n_set_sval n_st_trywait : nn.
Lemma n_st_set : forall b st v, PS st = b -> at_ b any (st_set st v).
Proof. intros. unfold st_set. ng. Qed.
Lemma n_st_trigger : forall b st v a m, PS st = b -> at_ b any (st_trigger st v a m).
Proof. intros. unfold st_trigger. ng. Qed.
Lemma n_wait1 : forall b c a, P c = b -> PS (fst (fst a)) = b -> at_ b any (wait1 c a).
Proof.
  intros b c [[st f] p] Pc Ps. cbn [fst] in Ps. unfold wait1. ng. intros r I. rewrite map_app, in_app_iff in I. destruct I as [I|[<-|[]]]; auto.
Qed.
Hint Resolve n_wait1 : nn.
Lemma n_wait : forall b c a al f p u cap, P c = b -> (forall x, In x a -> PS (fst (fst x)) = b) -> at_ b any (wait c a al f p u cap).
Proof. intros. unfold wait. ng. Qed.
Lemma n_wait_for : forall b c cond a f p u cap, P c = b -> (forall x, In x a -> PS x = b) -> (forall u v, (forall st, PS st = b -> u st = v st) -> cond u = cond v) ->
  at_ b any (wait_for c cond a f p u cap).
Proof.
  intros. unfold wait_for. ng.
  - intros g E. injection E as <-. auto.
  - intros r I. rewrite map_app, in_app_iff in I. destruct I as [I|[<-|[]]]; auto.
Qed.
(** stores *)
Lemma n_set_kmav : forall b x v, PK x = b -> at_ b any (set_kmav x v).
Proof.
  intros b st v Ps. unfold set_kmav. apply n_put. intros s t [[] C]. split; [|exact C].
  destruct b; (constructor; cbn; auto; [| destruct pt_evs0 as [L PL]; exists L; eapply paired_eq; eauto]).
  - intros x Px. unfold upd. destruct (Nat.eqb_spec x st) as [->|]; auto.
  - intros x Px. unfold upd. destruct (Nat.eqb_spec x st) as [->|]; auto. congruence.
Qed.
Lemma n_set_kcap : forall b x v, PK x = b -> at_ b any (put (fun s => s_kcap (upd (kcap s) x v) s)).
Proof.
  intros b st v Ps. apply n_put. intros s t [[] C]. split; [|exact C].
  destruct b; (constructor; cbn; auto; [| destruct pt_evs0 as [L PL]; exists L; eapply paired_eq; eauto]).
  - intros x Px. unfold upd. destruct (Nat.eqb_spec x st) as [->|]; auto.
  - intros x Px. unfold upd. destruct (Nat.eqb_spec x st) as [->|]; auto. congruence.
Qed.
Lemma n_give : forall b d c, P d = b -> at_ b any (give d c).
Proof. intros. unfold give. ng. Qed.
Lemma n_leave_from : forall b c, P c = b -> at_ b any (leave_from c).
Proof. intros. unfold leave_from. ng. Qed.
Lemma n_leave_to : forall b c, P c = b -> at_ b any (leave_to c).
Proof. intros. unfold leave_to. ng. Qed.
Hint Resolve n_set_kmav n_set_kcap n_give n_leave_from n_leave_to : nn.
Lemma n_names : forall b q, PQ q = b -> at_ b (fun l => forall c, In c l -> P c = b) (get (fun s => map fst (qs s q))).
Proof.
  intros. apply n_get. intros s t [S C]. split; [intros c I; rewrite (pt_mem _ _ S _ _ I); auto|]. intros E. rewrite (pt_qs _ _ S); auto. congruence.
Qed.
Lemma n_item : forall b n, (forall x c w, PK x = b -> P c = b -> at_ b any (item_enter n x c w)) /\ (forall x c, PK x = b -> at_ b any (item_leave n x c)).
Proof.
  induction n as [|n [IH1 IH2]]; split; intros; cbn [item_enter item_leave]; [ng|ng| |].
  - nstep. nstep; [ng|]. nstep; [ng|]. nstep; [ng|]. nstep; [ng|]. nstep; [ng|]. nstep.
    { apply n_setq; auto. intros l y I. destruct (in_ins_at _ _ _ _ I); [auto | subst; auto]. }
    eapply (n_bind _ _ _ (ino b)).
    { apply n_get. intros s t [S C].
      assert (M : forall d, In d (map fst (qs s (QFrom x))) -> P d = b) by (intros d I; rewrite (pt_mem _ _ S _ _ I); auto). split.
      - intros d E. apply find_some in E. apply M. tauto.
      - intros E. rewrite (pt_qs _ _ S) by (cbn; congruence). revert M. generalize (map fst (qs s (QFrom x))). intros l M.
        induction l as [|d l IH]; cbn; auto. rewrite (pt_comps _ _ S) by (rewrite <- E; apply M; left; auto). destruct (c_filter (comps s d) c); auto.
        apply IH. intros; apply M; right; auto. }
    intros d D. destruct d as [d|]; [|ng]. assert (P d = b) by (apply D; auto). ng.
  - nstep. nstep; [ng|]. nstep.
    { apply n_setq; auto. intros l y I. left. eapply in_adel; eauto. }
    nstep; [ng|]. nstep; [ng|]. nstep; [|ng]. eapply (n_bind _ _ _ (ino b)).
    { apply n_get. intros s t [S C].
      assert (M : forall d, In d (map fst (qs s (QTo x))) -> P d = b) by (intros d I; rewrite (pt_mem _ _ S _ _ I); auto). split.
      - intros d E. apply M. destruct (map fst (qs s (QTo x))); [discriminate|]. injection E as ->. left; auto.
      - intros E. rewrite (pt_qs _ _ S) by (cbn; congruence). auto. }
    intros d D. destruct d as [d|]; [|ng]. assert (P d = b) by (apply D; auto). nstep. destruct a3 as [i|]; [|ng]. ng.
Qed.
Lemma n_item_enter : forall b n x c w, PK x = b -> P c = b -> at_ b any (item_enter n x c w). Proof. intros. apply n_item; auto. Qed.
Lemma n_item_leave : forall b n x c, PK x = b -> at_ b any (item_leave n x c). Proof. intros. apply n_item; auto. Qed.
Hint Resolve n_item_enter n_item_leave : nn.
Lemma n_find : forall f key ks best lk s t, (forall x, In x ks -> qs t (QStore x) = qs s (QStore x)) -> find_item t f key best ks lk = find_item s f key best ks lk.
Proof.
  induction ks as [|x l IH]; intros; cbn [find_item]; auto. rewrite (H x (or_introl eq_refl)).
  assert (forall x, In x l -> qs t (QStore x) = qs s (QStore x)) by (intros; apply H; right; auto). destruct key; [apply IH; auto|]. destruct (find f _); auto.
Qed.
Lemma find_which : forall f key ks best lk s i x, find_item s f key best ks lk = (Some i, x) -> In x ks \/ x = lk.
Proof.
  induction ks as [|y l IH]; intros best lk s i x; cbn [find_item]; intros E; [injection E; auto|].
  destruct key as [kf|].
  - destruct (IH _ _ _ _ _ E); auto; left; [right | left]; auto.
  - destruct (find f _); [injection E as _ <-; left; left; auto|]. destruct (IH _ _ _ _ _ E); auto; left; [right | left]; auto.
Qed.
Lemma n_from_store : forall b n c ks f key rp fl fp u cap, P c = b -> ink b ks -> at_ b any (from_store n c ks f key rp fl fp u cap).
Proof.
  intros. unfold from_store. destruct ks as [|k0 kt]; [intros s t E; cbn; split; [discriminate | destruct b; auto]|]. remember (k0 :: kt) as ks.
  nstep; [ng|]. nstep; [ng|]. nstep; [ng|]. nstep; [ng|]. nstep; [ng|].
  eapply (n_bind _ _ _ (fun r => forall i, fst r = Some i -> In (snd r) ks)).
  { apply n_get. intros s t [S C]. split.
    - subst ks. intros i E. cbn [find_item] in *. destruct key as [kf|].
      + destruct (find_item s f (Some kf) (best_key f kf None (map fst (qs s (QStore k0)))) kt k0) as [r x] eqn:F. cbn in E. subst r. apply find_which in F. cbn. intuition.
      + destruct (find f (map fst (qs s (QStore k0)))); [left; auto|]. destruct (find_item s f None None kt k0) as [r x] eqn:F. cbn in E. subst r. apply find_which in F. cbn. intuition.
    - intros E. apply n_find. intros x X. apply (pt_qs _ _ S). cbn. rewrite <- E. apply H0; auto. }
  intros [[i|] x] HH; cbn [fst snd] in HH; [specialize (HH i eq_refl)|]; ng.
Qed.
Lemma n_to_try : forall b n c i p ks, P c = b -> P i = b -> ink b ks -> at_ b any (to_try n c i p ks).
Proof.
  induction ks as [|x ks IH]; intros; cbn [to_try]; [ng|]. assert (PK x = b) by (apply H1; left; auto). assert (ink b ks) by (intros y Y; apply H1; right; auto). ng.
Qed.
Hint Resolve n_to_try : nn.
Lemma n_to_store : forall b n c ks i rp p fl fp u cap, P c = b -> P i = b -> ink b ks -> at_ b any (to_store n c ks i rp p fl fp u cap).
Proof. intros. unfold to_store. ng. intros j E. injection E as <-. auto. Qed.
Lemma n_rescan_items : forall b n x d l, PK x = b -> P d = b -> at_ b any (rescan_items n x d l).
Proof. induction l; intros; cbn [rescan_items]; ng. Qed.
Hint Resolve n_rescan_items : nn.
Lemma n_rescan : forall b n x, PK x = b -> at_ b any (rescan n x).
Proof.
  intros. unfold rescan. eapply n_bind; [apply n_names; auto|]. intros ds D. nstep. specialize (D _ H0). nstep. nstep. eapply n_bind; [apply n_names; auto|]. intros. ng.
Qed.
Hint Resolve n_rescan : nn.
Lemma n_set_filter : forall b n c f, P c = b -> at_ b any (set_filter n c f).
Proof. intros. unfold set_filter. ng. Qed.
Lemma n_rescan_to_loop : forall b n x l, PK x = b -> (forall d, In d l -> P d = b) -> at_ b any (rescan_to_loop n x l).
Proof.
  induction l as [|d l IH]; intros; cbn [rescan_to_loop]; [ng|]. assert (P d = b) by (apply H0; left; auto). assert (forall d, In d l -> P d = b) by (intros; apply H0; right; auto).
  nstep. nstep; [|ng]. nstep; [ng|]. nstep; [|ng]. nstep; [ng|]. nstep. destruct a2 as [i|]; [|ng]. ng.
Qed.
Lemma n_st_set_cap : forall b n x cap, PK x = b -> at_ b any (st_set_cap n x cap).
Proof.
  intros. unfold st_set_cap. nstep; [ng|]. nstep; [ng|]. nstep; [ng|]. nstep; [ng|]. nstep. eapply n_bind; [apply n_names; auto|]. intros. apply n_rescan_to_loop; auto.
Qed.
(** scheduler *)
Lemma n_terminate : forall b n c, P c = b -> at_ b any (terminate n c).
Proof. intros. unfold terminate. ng. Qed.
Lemma n_continue : forall b n c, P c = b -> at_ b any (continue n c).
Proof. intros. unfold continue. ng. Qed.
Lemma n_reset_now : forall x, at_ true any (reset_now x).
Proof.
  intros x. unfold reset_now. apply n_put. intros s t [[] C]. split; [|exact C]. destruct (pt_cur0 (C eq_refl)) as [_ N].
  constructor; cbn; auto; [destruct pt_evs0 as [L PL]; exists L; eapply paired_eq; eauto | congruence].
Qed.
Lemma n_flag : forall f, (exists v, f = s_eoe v) \/ (exists v, f = s_running v) \/ (exists v, f = s_ended v) -> at_ true any (put f).
Proof.
  intros f F. apply n_put. intros s t [[] C]. destruct F as [(v & ->)|[(v & ->)|(v & ->)]]; (split; [|exact C]);
    (constructor; cbn; auto; destruct pt_evs0 as [L PL]; exists L; eapply paired_eq; eauto).
Qed.
Lemma n_run : forall sp p u cap, at_ true any (run sp p u cap).
Proof.
  intros. unfold run. ng; apply n_flag; eauto.
Qed.
End Part.
