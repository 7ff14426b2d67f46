(** Invariants of monitors: model against histories *)
From Coq Require Import QArith Qround Lqa List Bool Arith ZArith Lia.
From Verif Require Import Base Util Mon MonSpec.
Import ListNotations.
Open Scope Q_scope.

Lemma Qeqb_true : forall a b, Qeq_bool a b = true <-> a == b.
Proof. apply Qeq_bool_iff. Qed.
Lemma Qeqb_false : forall a b, Qeq_bool a b = false <-> ~ a == b.
Proof. intros a b. rewrite <- Qeq_bool_iff. destruct (Qeq_bool a b); split; congruence. Qed.
Lemma veqb_refl : forall x, veqb x x = true.
Proof. destruct x; cbn; auto; [apply Qeq_bool_refl|apply Nat.eqb_refl]. Qed.

(** *** the list of entries of a level monitor (last first) *)
Fixpoint look (off : val) (l : list (Q * val)) (t : Q) : val := match l with [] => off | (s, x) :: r => if Qle_bool s t then x else look off r t end.
Fixpoint decr (now : Q) (l : list (Q * val)) : Prop := match l with [] => True | (s, x) :: r => s <= now /\ match r with [] => True | (s', _) :: _ => s' < s end /\ decr s r end.
Lemma decr_le : forall l a b, decr a l -> a <= b -> decr b l.
Proof. destruct l as [|[s x] r]; cbn; auto. intros a b (A & B & C) L. repeat split; auto. lra. Qed.
Lemma Qle_bool_l : forall a b t, a == b -> Qle_bool a t = Qle_bool b t.
Proof. intros a b t E. destruct (Qle_bool b t) eqn:X; [apply Qle_bool_iff in X; apply Qle_bool_iff; lra|apply Qle_bool_false_iff in X; apply Qle_bool_false_iff; lra]. Qed.
Lemma put_decr : forall t x l, decr t l -> decr t (put_last t x l).
Proof.
  intros t x [|[s y] r] D; cbn [put_last]; [cbn; auto using Qle_refl|]. destruct (Qeq_bool s t) eqn:E.
  - cbn in *. tauto.
  - apply Qeqb_false in E. destruct D as (A & B & C). cbn. repeat split; auto; try lra.
Qed.
Lemma put_look : forall off t x l u, decr t l -> look off (put_last t x l) u = if Qle_bool t u then x else look off l u.
Proof.
  intros off t x [|[s y] r] u D; cbn [put_last look]; auto. destruct (Qeq_bool s t) eqn:E.
  - apply Qeqb_true in E. cbn [look]. rewrite (Qle_bool_l s t u E). destruct (Qle_bool t u); auto.
  - cbn [look]. auto.
Qed.
Lemma put_head : forall t x l, exists s r, put_last t x l = (s, x) :: r.
Proof. intros t x [|[s y] r]; cbn; eauto. destruct (Qeq_bool s t); eauto. Qed.
Lemma put_last_last : forall t x l d, l <> [] -> fst (last (put_last t x l) d) = fst (last l d).
Proof.
  intros t x [|[s y] r] d N; [congruence|]. cbn [put_last]. destruct (Qeq_bool s t).
  - destruct r; auto.
  - auto.
Qed.
(** sums over the durations *)
Definition gsum (off : val) (g : val -> Q) (l : list (val * Q)) : Q := total_of g (filter (fun p => negb (veqb (fst p) off)) l).
Lemma total_filter_put : forall off g e t x l, decr t l -> gsum off g (durs e (put_last t x l)) == (if veqb x off then 0 else g x * (e - t)) + gsum off g (durs t l).
Proof.
  intros off g e t x [|[s y] r] D.
  - cbn [put_last durs]. unfold gsum. cbn [filter fst]. destruct (veqb x off); cbn; ring.
  - cbn [put_last]. destruct (Qeq_bool s t) eqn:E.
    + apply Qeqb_true in E. cbn [durs]. unfold gsum. cbn [filter fst]. assert (E1 : e - s == e - t) by lra. assert (E2 : t - s == 0) by lra. destruct (veqb x off), (veqb y off); cbn [negb total_of]; rewrite ?E1, ?E2; ring.
    + cbn [durs]. unfold gsum. cbn [filter fst]. destruct (veqb x off), (veqb y off); cbn [negb total_of]; ring.
Qed.
Lemma gsum_now : forall off g a b l, match l with [] => True | (s, x) :: _ => x <> off -> veqb x off = false end -> gsum off g (durs b l) == gsum off g (durs a l) + (match l with [] => 0 | (s, x) :: _ => if veqb x off then 0 else g x * (b - a) end).
Proof. intros off g a b [|[s x] r] N; cbn [durs]; unfold gsum; cbn [filter fst]; [cbn; ring|]. destruct (veqb x off); cbn [negb total_of]; ring. Qed.

(** *** statistics of stats_only monitors (Welford) *)
Record stat (a : acc) (l : list (Q * Q)) : Prop := {
  st_n : a_n a = length l; st_w : a_w a == total_of (fun _ => 1) l; st_mu : a_mu a * a_w a == total_of (fun x => x) l;
  st_s : a_s a == total_of (fun x => x * x) l - a_mu a * a_mu a * a_w a;
  st_min : match a_min a with None => l = [] | Some q => is_least (map fst l) q end; st_max : match a_max a with None => l = [] | Some q => is_largest (map fst l) q end }.
Lemma stat0 : stat acc0 [].
Proof. constructor; cbn; auto; reflexivity. Qed.
Lemma stat_add : forall a l x w, stat a l -> ~ a_w a + w == 0 -> exists a', acc_add x w a = Some a' /\ stat a' ((x, w) :: l).
Proof.
  intros a l x w [N W MU S MI MA] NZ. unfold acc_add. destruct (Qeq_bool (a_w a + w) 0) eqn:E; [apply Qeqb_true in E; tauto|]. eexists. split; [reflexivity|].
  assert (F : (a_mu a + w / (a_w a + w) * (x - a_mu a)) * (a_w a + w) == total_of (fun x => x) l + x * w) by (rewrite <- MU; field; auto).
  constructor; cbn [a_n a_w a_mu a_s a_min a_max total_of length map fst]; auto.
  - rewrite W. ring.
  - rewrite F. ring.
  - set (mu' := a_mu a + w / (a_w a + w) * (x - a_mu a)) in *. rewrite S. assert (F2 : mu' * (a_w a + w) == a_mu a * a_w a + x * w) by (rewrite F, MU; reflexivity).
    assert (X : mu' * mu' * (a_w a + w) == mu' * (a_mu a * a_w a + x * w)) by (rewrite <- F2; ring). rewrite X.
    assert (Y : a_mu a * (mu' * (a_w a + w)) == a_mu a * (a_mu a * a_w a + x * w)) by (rewrite F2; reflexivity). lra.
  - destruct (a_min a) as [q|]; [|subst; split; [exists x; split; [left; auto|reflexivity]|intros y [<-|[]]; apply Qle_refl]].
    destruct MI as [(y & Y1 & Y2) Y3]. destruct (Qltb x q) eqn:L; [apply Qltb_iff in L|apply Qltb_false_iff in L].
    + split; [exists x; split; [left; auto|reflexivity]|]. intros z [<-|Z]; [apply Qle_refl|]. pose proof (Y3 z Z). lra.
    + split; [exists y; split; [right; auto|auto]|]. intros z [<-|Z]; auto.
  - destruct (a_max a) as [q|]; [|subst; split; [exists x; split; [left; auto|reflexivity]|intros y [<-|[]]; apply Qle_refl]].
    destruct MA as [(y & Y1 & Y2) Y3]. destruct (Qltb q x) eqn:L; [apply Qltb_iff in L|apply Qltb_false_iff in L].
    + split; [exists x; split; [left; auto|reflexivity]|]. intros z [<-|Z]; [apply Qle_refl|]. pose proof (Y3 z Z). lra.
    + split; [exists y; split; [right; auto|auto]|]. intros z [<-|Z]; auto.
Qed.
Lemma total_ext : forall A (f g : A -> Q) l, (forall x, f x == g x) -> total_of f l == total_of g l.
Proof. induction l as [|[x w] r IH]; intro E; cbn; [reflexivity|]. rewrite E, IH by auto. reflexivity. Qed.
Lemma total_plus : forall A (f g : A -> Q) l, total_of (fun x => f x + g x) l == total_of f l + total_of g l.
Proof. induction l as [|[x w] r IH]; cbn; [reflexivity|]. rewrite IH. ring. Qed.
Lemma total_scale : forall A (c : Q) (f : A -> Q) l, total_of (fun x => c * f x) l == c * total_of f l.
Proof. induction l as [|[x w] r IH]; cbn; [ring|]. rewrite IH. ring. Qed.
Lemma total_app : forall A (f : A -> Q) a b, total_of f (a ++ b) == total_of f a + total_of f b.
Proof. induction a as [|[x w] r IH]; intro b; cbn; [ring|]. rewrite IH. ring. Qed.
Lemma total_rev : forall A (f : A -> Q) a, total_of f (rev a) == total_of f a.
Proof. induction a as [|[x w] r IH]; cbn; [reflexivity|]. rewrite total_app, IH. cbn. ring. Qed.
Lemma total_map : forall A B (f : B -> Q) (k : A -> B) l, total_of f (map (fun p => (k (fst p), snd p)) l) = total_of (fun x => f (k x)) l.
Proof. induction l as [|[x w] r IH]; cbn; auto. rewrite IH. auto. Qed.
Lemma total_nonneg : forall A (l : list (A * Q)), (forall p, In p l -> 0 <= snd p) -> 0 <= total_of (fun _ => 1) l.
Proof. induction l as [|[x w] r IH]; intro N; cbn; [lra|]. assert (0 <= w) by (apply (N (x, w)); left; auto). assert (0 <= total_of (fun _ => 1) r) by (apply IH; intros; apply N; right; auto). lra. Qed.
(** the square in terms of the sums *)
Lemma square_sum : forall mu (l : list (Q * Q)), total_of (fun x => (x - mu) * (x - mu)) l == total_of (fun x => x * x) l - 2 * mu * total_of (fun x => x) l + mu * mu * total_of (fun _ => 1) l.
Proof. intros mu l. induction l as [|[x w] r IH]; cbn; [ring|]. rewrite IH. ring. Qed.
Lemma stat_var : forall a l, stat a l -> a_s a == total_of (fun x => (x - a_mu a) * (x - a_mu a)) l.
Proof. intros a l [N W MU S _ _]. rewrite square_sum, <- MU, <- W, S. ring. Qed.

(** *** histories of executions *)
Definition note_op (o : mop) (now : Q) (h : hist) : hist :=
  match o with OTally x w => (now, HTally x w) :: h | OMonitor b => (now, HSwitch b) :: h | OReset mo _ => (now, HReset mo) :: h | _ => h end.
(** what may be tallied: a value that fits the type and that is not the off value; in stats_only monitors weights are not negative *)
Definition value_ok (m : mon) (x : val) : Prop := fits (m_type m) x = true /\ (if m_level m then veqb x (m_off m) = false else x <> NegInf).
Definition op_ok (o : mop) (m : mon) : Prop := match o with OTally x w => value_ok m x /\ (m_stats m = true -> 0 <= w) | OTick dt => 0 <= dt | _ => True end.
Inductive traced : menv -> mon -> hist -> Prop :=
| tr_new : forall level ty stats on init v m, create level ty stats on init v = (m, Mok tt) -> value_ok (mkMon level ty stats false on init 0 0 [] WNo 0 acc0 acc0 []) init -> traced v m [(v_now v, HMade (if level then init else Num 0) on)]
| tr_ok : forall v m h o v' m', traced v m h -> op_ok o m -> mexec o (v, m) = ((v', m'), Mok tt) -> traced v' m' (note_op o (v_now v) h)
| tr_err : forall v m h o v' m' e, traced v m h -> op_ok o m -> mexec o (v, m) = ((v', m'), Mer e) -> traced v' m' h.

(** the weights of a non level monitor *)
Definition weights_ok (w : wts) (l : list (Q * val * Q)) : Prop := match w with WNo => Forall (fun p => snd p == 1) l | WList ws => Forall2 (fun a p => a == snd p) ws l | WLevel => False end.
Definition numof (p : val * Q) : Q * Q := (number (fst p), snd p).
Definition nonzero (p : Q * Q) : bool := negb (Qeq_bool (fst p) 0).
(** full level monitor *)
Record Lev (v : menv) (m : mon) (h : hist) : Prop := {
  lv_w : m_w m = WLevel; lv_decr : decr (v_now v) (m_e m); lv_head : exists s r, m_e m = (s, if m_on m then m_tally m else m_off m) :: r;
  lv_look : forall t, look (m_off m) (m_e m) t = match level_at h t with Some x => x | None => m_off m end;
  lv_int : forall g e, gsum (m_off m) g (durs e (m_e m)) == integral g h e;
  lv_start : fst (last (m_e m) (0, Num 0)) == m_start m;
  lv_vals : forall t x, In (t, x) (m_e m) -> x = m_off m \/ (fits (m_type m) x = true /\ veqb x (m_off m) = false) }.
(** full non level monitor *)
Record Pla (m : mon) (h : hist) : Prop := {
  pl_e : m_e m = map fst (seen h); pl_w : weights_ok (m_w m) (seen h); pl_vals : forall t x w, In (t, x, w) (seen h) -> fits (m_type m) x = true /\ x <> NegInf }.
(** stats_only *)
Record Sta (v : menv) (m : mon) (h : hist) (l : list (val * Q)) : Prop := {
  sa_0 : stat (m_a0 m) (map numof l); sa_1 : stat (m_a1 m) (filter nonzero (map numof l)); sa_pos : forall p, In p l -> 0 < snd p; sa_ttm : m_level m = true -> m_ttm m <= v_now v;
  sa_int : m_level m = true -> forall g e, total_of g l + (if m_on m then g (m_tally m) * (e - m_ttm m) else 0) == integral g h e;
  sa_seen : m_level m = false -> l = filter (fun p => negb (Qeq_bool (snd p) 0)) (map (fun p => (snd (fst p), snd p)) (seen h)) }.
Record Minv (v : menv) (m : mon) (h : hist) : Prop := {
  mi_gen : m_gen m = false; mi_on : m_on m = on_of h; mi_val : m_level m = true -> m_tally m = value_of h;
  mi_ok : m_level m = true -> fits (m_type m) (m_tally m) = true /\ veqb (m_tally m) (m_off m) = false;
  mi_ne : h <> []; mi_time : exists s e r, h = (s, e) :: r /\ s <= v_now v; mi_start : m_start m = start_of h;
  mi_lev : m_stats m = false -> m_level m = true -> Lev v m h;
  mi_pla : m_stats m = false -> m_level m = false -> Pla m h;
  mi_sta : m_stats m = true -> exists l, Sta v m h l }.

(** *** every step keeps the invariant *)
Lemma level_at_cons : forall off s e r t, starts e = false -> (match level_at ((s, e) :: r) t with Some x => x | None => off end) = if Qle_bool s t then (if on_of ((s, e) :: r) then value_of ((s, e) :: r) else off) else match level_at r t with Some x => x | None => off end.
Proof. intros off s e r t S. cbn [level_at]. destruct (Qle_bool s t); [destruct (on_of _); auto|]. rewrite S. auto. Qed.
(** a tally or switch in a full level monitor: the entries are changed at the end *)
Lemma lev_put : forall v m h m' e x, Lev v m h -> starts e = false -> x = (if on_of ((v_now v, e) :: h) then value_of ((v_now v, e) :: h) else m_off m) ->
  (on_of ((v_now v, e) :: h) = true -> veqb x (m_off m) = false /\ fits (m_type m) x = true) ->
  m_e m' = put_last (v_now v) x (m_e m) -> m_w m' = m_w m -> m_type m' = m_type m -> m_start m' = m_start m -> m_on m' = on_of ((v_now v, e) :: h) -> m_tally m' = value_of ((v_now v, e) :: h) -> Lev v m' ((v_now v, e) :: h).
Proof.
  intros v m h m' e x [W D HD LO IN ST VA] S X OK E EW ET ES EON ETA. assert (OFF : m_off m' = m_off m) by (unfold m_off; rewrite ET; auto).
  assert (NE : m_e m <> []) by (destruct HD as (s & r & ->); discriminate).
  constructor.
  - congruence.
  - rewrite E. apply put_decr. auto.
  - rewrite E, EON, ETA, OFF. destruct (put_head (v_now v) x (m_e m)) as (s & r & ->). exists s, r. congruence.
  - intro t. rewrite OFF, E, put_look by auto. rewrite level_at_cons by auto. rewrite LO, <- X. auto.
  - intros g u. rewrite OFF, E, total_filter_put by auto. rewrite IN. cbn [integral]. rewrite S. destruct (on_of ((v_now v, e) :: h)) eqn:O.
    + destruct (OK eq_refl) as [F _]. rewrite F, X. reflexivity.
    + rewrite X, veqb_refl. reflexivity.
  - rewrite E, put_last_last, ES by auto. auto.
  - intros t y I. rewrite OFF, ET. rewrite E in I. assert (Y : y = x \/ In (t, y) (m_e m)) by (clear - I; destruct (m_e m) as [|[s z] r]; cbn [put_last] in I; [destruct I as [I|[]]; injection I as <- <-; auto|]; destruct (Qeq_bool s (v_now v)); destruct I as [I|I]; try (injection I as <- <-; auto); auto; right; right; auto).
    destruct Y as [->|Y]; [|eapply VA; eauto]. destruct (on_of ((v_now v, e) :: h)) eqn:O; [right; destruct (OK eq_refl); auto|left; auto].
Qed.
(** nothing is recorded while off *)
Lemma lev_skip : forall v m h m' x w, Lev v m h -> m_on m = false -> on_of h = false -> m_e m' = m_e m -> m_w m' = m_w m -> m_type m' = m_type m -> m_start m' = m_start m -> m_on m' = false -> Lev v m' ((v_now v, HTally x w) :: h).
Proof.
  intros v m h m' x w [W D HD LO IN ST VA] ON OH E EW ET ES EON. assert (OFF : m_off m' = m_off m) by (unfold m_off; rewrite ET; auto). rewrite ON in HD. constructor.
  - congruence.
  - rewrite E. auto.
  - rewrite EON, OFF, E. auto.
  - intro t. rewrite level_at_cons by auto. cbn [on_of]. rewrite OH, OFF, E, LO. destruct (Qle_bool (v_now v) t) eqn:Q; auto. apply Qle_bool_iff in Q.
    destruct HD as (s & r & HD). rewrite <- LO, HD. cbn [look]. rewrite HD in D. destruct D as (D & _). assert (X : Qle_bool s t = true) by (apply Qle_bool_iff; lra). rewrite X. auto.
  - intros g u. cbn [integral on_of starts]. rewrite OH, OFF, E. rewrite <- IN. destruct HD as (s & r & HD). rewrite HD. cbn [durs]. unfold gsum. cbn [filter fst]. rewrite veqb_refl. cbn [negb]. ring.
  - rewrite E, ES. auto.
  - rewrite E, OFF, ET. auto.
Qed.
(** time passes *)
Lemma lev_tick : forall v v' m h, Lev v m h -> v_now v <= v_now v' -> Lev v' m h.
Proof. intros v v' m h [W D HD LO IN ST VA] L. constructor; auto. eapply decr_le; eauto. Qed.
(** a new start *)
Lemma lev_start : forall v m h x e, m_w m = WLevel -> m_e m = [(v_now v, x)] -> starts e = true -> x = (if m_on m then m_tally m else m_off m) -> m_on m = on_of ((v_now v, e) :: h) -> m_tally m = value_of ((v_now v, e) :: h) -> m_start m = v_now v ->
  fits (m_type m) (m_tally m) = true /\ veqb (m_tally m) (m_off m) = false -> Lev v m ((v_now v, e) :: h).
Proof.
  intros v m h x e W E S X O T ST [F1 F2]. constructor; auto.
  - rewrite E. cbn. auto using Qle_refl.
  - rewrite E. subst x. eauto.
  - intro t. rewrite E. cbn [look level_at]. rewrite S. destruct (Qle_bool (v_now v) t); auto. rewrite X, <- O, <- T. destruct (m_on m); auto.
  - intros g u. rewrite E. cbn [durs integral]. rewrite S. unfold gsum. cbn [filter fst]. rewrite X, <- O, <- T. destruct (m_on m); [rewrite F2|rewrite veqb_refl]; cbn [negb total_of]; ring.
  - rewrite E, ST. reflexivity.
  - rewrite E. intros t y [Y|[]]. injection Y as <- <-. rewrite X. destruct (m_on m); auto.
Qed.

Lemma weights_add : forall w t x l ws, weights_ok ws l -> weights_ok (add_weight w (length l) ws) ((t, x, w) :: l).
Proof.
  intros w t x l ws W. unfold add_weight. destruct (Qeq_bool w 1) eqn:E.
  - apply Qeqb_true in E. destruct ws as [| |ws]; cbn in *; auto. constructor; auto. cbn. reflexivity.
  - destruct ws as [| |ws]; cbn in *; [|tauto|constructor; auto; cbn; reflexivity]. constructor; [cbn; reflexivity|]. induction W; cbn; constructor; auto. symmetry. auto.
Qed.

(** statistics: one more interval or value *)
Lemma nonzero_num : forall q w, nonzero (q, w) = negb (Qeq_bool q 0).
Proof. reflexivity. Qed.
Lemma num_numeric : forall x, numq (numeric x) = number x.
Proof. destruct x as [q| |i [q|]]; auto. Qed.
Definition poss (l : list (val * Q)) : Prop := forall p, In p l -> 0 < snd p.
Lemma sum_pos : forall l, poss l -> 0 <= total_of (fun _ => 1) (map numof l) /\ 0 <= total_of (fun _ => 1) (filter nonzero (map numof l)).
Proof.
  intros l P. assert (G : forall p, In p (map numof l) -> 0 <= snd p) by (intros p I; apply in_map_iff in I; destruct I as (q & <- & I); specialize (P q I); cbn; lra).
  split; apply total_nonneg; auto. intros p I. apply filter_In in I. apply G. tauto.
Qed.
Lemma sta_add : forall a0 a1 l x w, stat a0 (map numof l) -> stat a1 (filter nonzero (map numof l)) -> poss l -> 0 < w ->
  exists b0 b1, acc_add (numq (numeric x)) w a0 = Some b0 /\ (if Qeq_bool (numq (numeric x)) 0 then b1 = a1 else acc_add (numq (numeric x)) w a1 = Some b1) /\ stat b0 (map numof ((x, w) :: l)) /\ stat b1 (filter nonzero (map numof ((x, w) :: l))).
Proof.
  intros a0 a1 l x w S0 S1 P W. destruct (sum_pos l P) as [P0 P1]. rewrite num_numeric. rewrite <- (st_w _ _ S0) in P0. rewrite <- (st_w _ _ S1) in P1.
  destruct (stat_add a0 _ (number x) w S0) as (b0 & E0 & T0); [lra|]. exists b0. change (map numof ((x, w) :: l)) with ((number x, w) :: map numof l). cbn [filter]. rewrite nonzero_num. destruct (Qeq_bool (number x) 0); cbn [negb].
  - exists a1. auto.
  - destruct (stat_add a1 _ (number x) w S1) as (b1 & E1 & T1); [lra|]. exists b1. auto.
Qed.

