(** Property C74: what the animation shows is the model at the animation time, and showing it does
    not change what happens. *)
From Coq Require Import QArith Lqa List Bool Arith ZArith Lia.
From Verif Require Import Base Kernel Wp KernelE KernelL KernelX KernelT KernelQ KernelS KernelC PropSched PropCalls PropPeek Anim.
Import ListNotations.
Open Scope Q_scope.

(** ** The actions do not touch the simulation *)
Ltac fld := repeat match goal with |- context [match ?x with _ => _ end] => destruct x end; reflexivity.
Lemma act_s : forall x a, a_s (act x a) = a_s a.
Proof. intros [sp sy fr an vd|b| | | | | | |] a; cbn; unfold params, an_go, an_menu, set_paused; fld. Qed.
Lemma act_n : forall x a, a_n (act x a) = a_n a.
Proof. intros [sp sy fr an vd|b| | | | | | |] a; cbn; unfold params, an_go, an_menu, set_paused; fld. Qed.
Lemma act_w : forall x a, a_w (act x a) = a_w a.
Proof. intros [sp sy fr an vd|b| | | | | | |] a; cbn; unfold params, an_go, an_menu, set_paused; fld. Qed.
Lemma act_frames : forall x a, a_frames (act x a) = a_frames a.
Proof. intros [sp sy fr an vd|b| | | | | | |] a; cbn; unfold params, an_go, an_menu, set_paused; fld. Qed.
Lemma acts_s : forall l a, a_s (acts l a) = a_s a.
Proof. induction l as [|x l IH]; intros a; cbn; [reflexivity|]. unfold acts in IH. rewrite IH. apply act_s. Qed.
Lemma acts_n : forall l a, a_n (acts l a) = a_n a.
Proof. induction l as [|x l IH]; intros a; cbn; [reflexivity|]. unfold acts in IH. rewrite IH. apply act_n. Qed.
Lemma acts_w : forall l a, a_w (acts l a) = a_w a.
Proof. induction l as [|x l IH]; intros a; cbn; [reflexivity|]. unfold acts in IH. rewrite IH. apply act_w. Qed.
Lemma acts_frames : forall l a, a_frames (acts l a) = a_frames a.
Proof. induction l as [|x l IH]; intros a; cbn; [reflexivity|]. unfold acts in IH. rewrite IH. apply act_frames. Qed.

Section Fixed.
Variable fuel : nat.
Variable body : nat -> env -> list op.
Variable orders : nat -> env -> list action.
Variable quiet : nat -> bool.
Notation turn := (turn fuel body).
Notation turn_a := (turn_a fuel body orders).
Notation catch_up := (catch_up fuel body orders).
Notation pass := (pass fuel body orders quiet).
Notation single_step := (single_step fuel body orders).
Notation plain := (plain fuel body).
Notation next := (next fuel body).

Lemma turn_a_inv : forall a b, turn_a a = Some b ->
  exists s1, turn (a_n a) (a_s a) = Some s1 /\ a_s b = s1 /\ a_n b = S (a_n a) /\ a_w b = a_w a /\ a_frames b = a_frames a /\
    b = (if running s1 then acts (orders (a_n a) s1) (u_s s1 (S (a_n a)) a) else u_s s1 (S (a_n a)) a).
Proof.
  unfold Anim.turn_a. intros a b H. destruct (turn (a_n a) (a_s a)) as [s1|]; [|discriminate]. exists s1.
  injection H as H. rewrite <- H. destruct (running s1); rewrite ?acts_s, ?acts_n, ?acts_w, ?acts_frames; cbn; repeat split.
Qed.
(** the state of the animated simulation is that of the simulation after the same number of turns *)
Definition on_track (s0 : env) (a : anim) : Prop := plain s0 (a_n a) = Some (a_s a).
Lemma turn_track : forall s0 a b, on_track s0 a -> running (a_s a) = true -> turn_a a = Some b -> on_track s0 b.
Proof.
  intros s0 a b T R E. destruct (turn_a_inv _ _ E) as (s1 & E1 & S1 & N & _). unfold on_track. rewrite N, S1. cbn.
  unfold on_track in T. rewrite T. unfold Anim.next. rewrite R. exact E1.
Qed.
(** an invariant of the inner loop is one of the whole loop *)
Lemma catch_inv : forall (I : anim -> Prop),
  (forall a b, I a -> running (a_s a) = true -> a_on a = true -> xltb (peek (a_s a)) (Fin (a_t a)) = true -> turn_a a = Some b -> I b) ->
  forall g a b d, I a -> running (a_s a) = true -> a_on a = true -> catch_up g a = Some (b, d) ->
  I b /\ (d = true -> running (a_s b) = true /\ a_on b = true /\ xltb (peek (a_s b)) (Fin (a_t b)) = false).
Proof.
  intros I HI. induction g as [|g IH]; intros a b d H R O E; cbn in E; destruct (xltb (peek (a_s a)) (Fin (a_t a))) eqn:X.
  - discriminate.
  - injection E as <- <-. auto.
  - destruct (turn_a a) as [a1|] eqn:T; [|discriminate]. pose proof (HI _ _ H R O X T) as H1.
    destruct (running (a_s a1) && a_on a1) eqn:Y.
    + apply andb_true_iff in Y. destruct Y. eapply IH; eauto.
    + injection E as <- <-. split; [auto|discriminate].
  - injection E as <- <-. auto.
Qed.
Lemma track_same : forall s0 a b, a_s b = a_s a -> a_n b = a_n a -> on_track s0 a -> on_track s0 b.
Proof. unfold on_track. intros s0 a b -> ->. auto. Qed.
Lemma pass_track : forall s0 g w a b d, on_track s0 a -> running (a_s a) = true -> a_on a = true -> pass g w a = Some (b, d) ->
  on_track s0 b.
Proof.
  intros s0 g w a b d T R O E. unfold Anim.pass in E. cbn [a_s a_n a_synced a_video a_step a_paused u_w] in E.
  assert (U : on_track s0 (u_w w a)) by (apply (track_same _ a); auto).
  match type of E with match ?m with _ => _ end = _ => destruct m as [[a1 d1]|] eqn:M; [|discriminate] end.
  assert (T1 : on_track s0 a1).
  { destruct (a_synced a || a_video a).
    - apply (catch_inv (on_track s0) (fun x y H1 H2 _ _ H3 => turn_track s0 x y H1 H2 H3) g (u_t (clocked (u_w w a)) (u_w w a)) a1 d1
        (track_same s0 a _ eq_refl eq_refl T) R O M).
    - destruct (a_step a || negb (a_paused a)).
      + destruct (turn_a (u_w w a)) as [a2|] eqn:T2; [|discriminate]. pose proof (turn_track _ _ _ U R T2) as H.
        injection M as <- _. destruct (quiet _); exact H.
      + injection M as <- _. exact U. }
  destruct d1.
  - destruct (running (a_s a1) && a_on a1).
    + injection E as <- _. destruct (a_video a1 && negb (a_paused a1)); exact T1.
    + injection E as <- _. exact T1.
  - injection E as <- _. exact T1.
Qed.

(** ** C74 *)
(** Animation does not change what happens: whatever the clock does, and whatever is done at the keyboard
    or by the program about the animation, the simulation goes through the same states. *)
Theorem C74_same_run : forall keys single a b, shown fuel body orders quiet keys single a b -> a_n a = O ->
  plain (a_s a) (a_n b) = Some (a_s b).
Proof.
  intros keys single a b H N. change (on_track (a_s a) b). induction H as [a|a b c g w d H IH R O L E|a b w x H IH L K|a b c w H IH R L S E R'|a b c w H IH R O L E|a b w H IH R L].
  - unfold on_track. rewrite N. reflexivity.
  - eapply pass_track; eauto.
  - apply (track_same _ b); [rewrite act_s; reflexivity|rewrite act_n; reflexivity|auto].
  - unfold Anim.single_step in E. destruct (turn_a (u_step true (u_w w b))) as [c1|] eqn:T; [|discriminate]. injection E as <-.
    assert (X : on_track (a_s a) c1) by (apply (turn_track _ (u_step true (u_w w b)) c1); auto; apply (track_same _ b); auto). exact X.
  - apply (turn_track _ (u_w w b) c); auto.
  - unfold on_track. rewrite acts_n, acts_s. cbn. pose proof (IH N) as T. unfold on_track in T. rewrite T. unfold Anim.next. rewrite R. reflexivity.
Qed.

(** *** what is shown *)
(** [sane]: no process of the program makes a step itself, its states are those of executions in which
    calls are well-formed, and no component has skip_standby *)
Definition sane (s0 : env) : Prop :=
  (forall k s, ~ In OStep (body k s)) /\
  (forall k s, plain s0 k = Some s -> reach_t s /\ c_skip (comps s (cur s)) = false /\ (running s = true -> ended s = false)).
Lemma perform_clock : forall l s, ~ In OStep l -> clock (perform fuel l s) = clock s /\ cur (perform fuel l s) = cur s.
Proof.
  induction l as [|o l IH]; intros s N; cbn; [auto|].
  destruct (exec fuel o s) as [s1 r] eqn:E. cbn in N.
  destruct (C67_only_steps s fuel o s1 r) as (A & B); [intros ->; auto|exact E|].
  cbn. unfold perform in IH. destruct (IH s1) as (C & D); [auto|]. split; congruence.
Qed.
Lemma perform_now : forall l s, ~ In OStep l -> now (perform fuel l s) = now s.
Proof.
  induction l as [|o l IH]; intros s N; cbn; [auto|].
  destruct (exec fuel o s) as [s1 r] eqn:E. cbn in N. pose proof (t_exec fuel o) as F.
  assert (NO : o <> OStep) by (intros ->; auto). specialize (F NO s). rewrite E in F. destruct F as (A & B & C & _). cbn in *.
  unfold perform in IH. rewrite IH; auto; congruence.
Qed.
Lemma turn_clock : forall s0 k s s1, sane s0 -> plain s0 k = Some s -> running s = true -> turn k s = Some s1 -> clock s1 = peek s.
Proof.
  intros s0 k s s1 (A & B) P R E. destruct (B _ _ P) as (C & D & F). unfold Anim.turn in E.
  destruct (exec fuel OStep s) as [s2 [u|e]] eqn:X; [|discriminate].
  pose proof (C67_exact_partial s fuel s2 (Ok u) C (F R) D X) as Y. injection E as <-. destruct (running s2); auto.
  destruct (perform_clock (body k s2) s2 (A k s2)) as (Z & _). congruence.
Qed.
Lemma turn_after : forall s0 k s s1, sane s0 -> plain s0 k = Some s -> running s = true -> turn k s = Some s1 -> xle (peek s) (clock s1).
Proof. intros s0 k s s1 H P R E. rewrite (turn_clock _ _ _ _ H P R E). apply xle_refl. Qed.
Lemma turn_now : forall s0 a b, sane s0 -> on_track s0 a -> running (a_s a) = true -> xltb (peek (a_s a)) (Fin (a_t a)) = true ->
  turn_a a = Some b -> now (a_s b) <= a_t a.
Proof.
  intros s0 a b H T R X E. destruct (turn_a_inv _ _ E) as (s1 & E1 & S1 & _). rewrite S1.
  pose proof (turn_clock _ _ _ _ H T R E1) as C. rewrite <- C in X. unfold clock in X. apply xltb_iff in X.
  destruct (ended s1); [destruct X|]. cbn in X. lra.
Qed.

(** without video: an_synced is not used, and speeds are not negative *)
Definition unfilmed (x : action) : Prop :=
  match x with
  | ASynced => False
  | AParam sp _ _ _ vd => (forall v, sp = Some v -> 0 <= v) /\ forall f, vd <> Some (Some f)
  | _ => True
  end.
Definition same_clock (a b : anim) : Prop :=
  a_t b = a_t a /\ a_st b = a_st a /\ a_sc b = a_sc a /\ a_speed b = a_speed a /\ a_paused b = a_paused a /\
  a_synced b = a_synced a /\ (a_on b = true -> a_on a = true).
Definition new_clock (a b : anim) : Prop :=
  a_st b = a_t b /\ a_sc b = a_w b /\ (a_on b = true -> a_t b = now (a_s b) \/ (a_t b = a_t a /\ a_on a = true)).
(** same_clock or new_clock with the switch as it was *)
Definition shape (a b : anim) : Prop :=
  a_video b = false /\ 0 <= a_speed b /\ a_s b = a_s a /\ a_w b = a_w a /\ a_t b = a_t a /\
  ((a_st b = a_st a /\ a_sc b = a_sc a /\ a_speed b = a_speed a /\ a_paused b = a_paused a /\ a_synced b = a_synced a) \/
   (a_st b = a_t a /\ a_sc b = a_w a)).
Lemma shape_trans : forall a b c, shape a b -> shape b c -> shape a c.
Proof.
  intros a b c (A1 & A2 & A3 & A4 & A5 & A6) (B1 & B2 & B3 & B4 & B5 & B6). unfold shape. rewrite B3, B4, B5, A3, A4, A5.
  repeat split; auto. destruct B6 as [(C1 & C2 & C3 & C4 & C5)|(C1 & C2)].
  - rewrite C1, C2, C3, C4, C5. exact A6.
  - right. rewrite C1, C2, A4, A5. auto.
Qed.
Lemma params_shape : forall sp sy fr an vd a, (forall v, sp = Some v -> 0 <= v) -> (forall f, vd <> Some (Some f)) ->
  a_video a = false -> 0 <= a_speed a ->
  a_video (params sp sy fr an vd a) = false /\ 0 <= a_speed (params sp sy fr an vd a) /\
  (same_clock a (params sp sy fr an vd a) \/ new_clock a (params sp sy fr an vd a)).
Proof.
  intros sp sy fr an vd a U1 U2 V S. unfold params.
  set (a1 := match sp with Some v => set_start (u_speed v a) | None => a end).
  assert (H1 : shape a a1 /\ a_on a1 = a_on a).
  { unfold a1, shape. destruct sp as [v|]; cbn; repeat split; auto; left; auto. }
  clearbody a1.
  set (a2 := match sy with Some b => set_start (u_synced b a1) | None => a1 end).
  assert (H2 : shape a a2 /\ a_on a2 = a_on a).
  { destruct H1 as (H1 & O1). split; [|unfold a2; destruct sy; auto]. apply (shape_trans a a1); auto. destruct H1 as (A1 & A2 & _).
    unfold a2, shape. destruct sy as [v|]; cbn; repeat split; auto; left; auto. }
  clearbody a2. clear H1 a1.
  set (fc2 := match an with Some b => fr || negb (Bool.eqb b (a_on a)) | None => fr end). clearbody fc2.
  set (a3 := match an with Some b => u_on b a2 | None => a2 end).
  assert (H3 : shape a a3 /\ True).
  { destruct H2 as (H2 & _). split; auto. unfold a3. destruct an; auto. }
  clearbody a3. clear H2 a2.
  set (a4 := match vd with Some (Some f) => u_video true f a3 | Some None => u_video false (a_rfps a3) a3 | None => a3 end).
  assert (H4 : shape a a4 /\ a_on a4 = a_on a3).
  { destruct H3 as (H3 & _). unfold a4. destruct vd as [[f|]|]; [exfalso; apply (U2 f); auto| |]; split; auto.
    destruct H3 as (A1 & A2 & A3 & A4 & A5 & A6). unfold shape. cbn. repeat split; auto. }
  clearbody a4. destruct H4 as ((A1 & A2 & A3 & A4 & A5 & A6) & O4). cbv zeta. rewrite A1, O4.
  destruct (a_on a3) eqn:O3.
  - destruct (a_on a) eqn:O.
    + destruct fc2; cbn [andb].
      * split; [exact A1|]. split; [exact A2|]. right. repeat split. intros _. left. reflexivity.
      * split; [exact A1|]. split; [exact A2|]. destruct A6 as [(C1 & C2 & C3 & C4 & C5)|(C1 & C2)].
        -- left. repeat split; auto.
        -- right. split; [congruence|]. split; [congruence|]. intros _. right. auto.
    + cbn [andb]. split; [exact A1|]. split; [exact A2|]. right. repeat split. intros _. left. reflexivity.
  - rewrite andb_false_r. split; [exact A1|]. split; [exact A2|]. destruct A6 as [(C1 & C2 & C3 & C4 & C5)|(C1 & C2)].
    + left. repeat split; auto. intros Z. congruence.
    + right. split; [congruence|]. split; [congruence|]. intros Z. congruence.
Qed.
Lemma act_shape : forall x a, unfilmed x -> a_video a = false -> 0 <= a_speed a ->
  a_video (act x a) = false /\ 0 <= a_speed (act x a) /\ (same_clock a (act x a) \/ new_clock a (act x a)).
Proof.
  intros x a U V S. destruct x as [sp sy fr an vd|b| | | | | | |]; cbn [unfilmed] in U; try contradiction.
  - destruct U as (U1 & U2). apply params_shape; auto.
  - split; [exact V|]. split; [exact S|]. right. repeat split; auto.
  - split; [exact V|]. split; [cbn; apply Qle_shift_div_l; lra|]. right. repeat split; auto.
  - split; [exact V|]. split; [cbn; lra|]. right. repeat split; auto.
  - cbn. unfold an_go, set_paused. cbn. destruct (a_synced a); (split; [exact V|]); (split; [exact S|]); right; repeat split; auto.
  - split; [exact V|]. split; [exact S|]. right. repeat split; auto.
  - cbn. destruct (a_paused a); [unfold an_go, set_paused; cbn; destruct (a_synced a)|]; (split; [exact V|]); (split; [exact S|]); right; repeat split; auto.
  - split; [exact V|]. split; [exact S|]. left. repeat split; auto.
Qed.
(** the clock never stands before the simulation *)
Definition J (a : anim) : Prop :=
  a_video a = false /\ 0 <= a_speed a /\ a_sc a <= a_w a /\
  (a_on a = true -> now (a_s a) <= a_t a /\ (a_synced a = true -> now (a_s a) <= clocked a)).
(** and in the inner loop *)
Definition K (a : anim) : Prop :=
  a_video a = false /\ 0 <= a_speed a /\ a_sc a <= a_w a /\
  (a_on a = true -> now (a_s a) <= a_t a /\ (a_synced a = true -> a_t a <= clocked a)).
Lemma K_J : forall a, K a -> J a.
Proof.
  intros a (A & B & C & D). split; [auto|]. split; [auto|]. split; [auto|]. intros O. destruct (D O) as (E & F).
  split; auto. intros Y. specialize (F Y). lra.
Qed.
Lemma clocked_at : forall a, a_video a = false -> a_st a = a_t a -> a_sc a = a_w a -> clocked a == a_t a.
Proof. intros a V A B. unfold clocked. rewrite V, A, B. destruct (a_paused a); [reflexivity|]. ring. Qed.
Lemma clocked_same : forall a b, a_video a = false -> a_video b = false -> a_st b = a_st a -> a_sc b = a_sc a -> a_w b = a_w a ->
  a_speed b = a_speed a -> a_paused b = a_paused a -> clocked b = clocked a.
Proof. intros a b V W A B C D E. unfold clocked. rewrite V, W, A, B, C, D, E. reflexivity. Qed.
Lemma K_act : forall x a, unfilmed x -> K a -> K (act x a).
Proof.
  intros x a U (A & B & C & D). destruct (act_shape x a U A B) as (V & S & [(T1 & T2 & T3 & T4 & T5 & T6 & T7)|(T1 & T2 & T3)]).
  - split; [auto|]. split; [auto|]. split; [rewrite T3, act_w; auto|]. intros O. destruct (D (T7 O)) as (E & F).
    rewrite act_s, T1, T6. split; [auto|]. intros Y. rewrite (clocked_same a); auto. apply act_w.
  - split; [auto|]. split; [auto|]. split; [rewrite T2; lra|]. intros O. split.
    + destruct (T3 O) as [->|(-> & O')]; [lra|]. rewrite act_s. apply D; auto.
    + intros _. rewrite clocked_at; auto. lra.
Qed.
Lemma J_act : forall x a, unfilmed x -> J a -> J (act x a).
Proof.
  intros x a U (A & B & C & D). destruct (act_shape x a U A B) as (V & S & [(T1 & T2 & T3 & T4 & T5 & T6 & T7)|(T1 & T2 & T3)]).
  - split; [auto|]. split; [auto|]. split; [rewrite T3, act_w; auto|]. intros O. destruct (D (T7 O)) as (E & F).
    rewrite act_s, T1, T6. split; [auto|]. intros Y. rewrite (clocked_same a); auto. apply act_w.
  - split; [auto|]. split; [auto|]. split; [rewrite T2; lra|]. intros O.
    assert (N : now (a_s (act x a)) <= a_t (act x a)) by (destruct (T3 O) as [->|(-> & O')]; [lra|]; rewrite act_s; apply D; auto).
    split; auto. intros _. rewrite clocked_at; auto.
Qed.
Lemma K_acts : forall l a, (forall x, In x l -> unfilmed x) -> K a -> K (acts l a).
Proof. induction l as [|x l IH]; intros a U H; cbn; auto. apply IH; [intros; apply U; right; auto|]. apply K_act; auto. apply U; left; auto. Qed.
Lemma J_acts : forall l a, (forall x, In x l -> unfilmed x) -> J a -> J (acts l a).
Proof. induction l as [|x l IH]; intros a U H; cbn; auto. apply IH; [intros; apply U; right; auto|]. apply J_act; auto. apply U; left; auto. Qed.
Lemma clocked_later : forall w a, a_video a = false -> 0 <= a_speed a -> a_w a <= w -> clocked a <= clocked (u_w w a).
Proof.
  intros w a V S L. unfold clocked. cbn. rewrite V. destruct (a_paused a); [lra|].
  assert ((a_w a - a_sc a) * a_speed a <= (w - a_sc a) * a_speed a) by (apply Qmult_le_compat_r; lra). lra.
Qed.
Lemma J_w : forall w a, a_w a <= w -> J a -> J (u_w w a).
Proof.
  intros w a L (A & B & C & D). split; [auto|]. split; [auto|]. split; [cbn; lra|]. intros O. destruct (D O) as (E & F).
  split; auto. intros Y. pose proof (clocked_later w a A B L) as G. specialize (F Y). change (a_s (u_w w a)) with (a_s a). lra.
Qed.
Lemma K_start : forall a, a_synced a = true -> a_on a = true -> J a -> K (u_t (clocked a) a).
Proof.
  intros a Y O (A & B & C & D). destruct (D O) as (E & F). split; [auto|]. split; [auto|]. split; [auto|].
  intros _. split; [apply F; auto|]. intros _. unfold clocked. cbn. lra.
Qed.
Lemma K_turn : forall s0 a b, sane s0 -> (forall k s x, In x (orders k s) -> unfilmed x) -> on_track s0 a -> K a ->
  running (a_s a) = true -> a_on a = true -> xltb (peek (a_s a)) (Fin (a_t a)) = true -> turn_a a = Some b -> K b.
Proof.
  intros s0 a b H U T (A & B & C & D) R O X E. pose proof (turn_now s0 a b H T R X E) as N.
  destruct (turn_a_inv _ _ E) as (s1 & E1 & S1 & _ & _ & _ & EB). destruct (D O) as (F & G).
  assert (Z : K (u_s s1 (S (a_n a)) a)).
  { split; [auto|]. split; [auto|]. split; [auto|]. intros _. split; [cbn; rewrite <- S1; auto|]. exact G. }
  rewrite EB. destruct (running s1); auto. apply K_acts; auto. intros x I. apply (U _ _ _ I).
Qed.
(** what a pass does: the mode it is in, and the state before a frame may be saved *)
Lemma pass_cases : forall g w a c d, pass g w a = Some (c, d) -> running (a_s a) = true -> a_on a = true ->
  exists a1 d1,
    (if a_synced a || a_video a then catch_up g (u_t (clocked (u_w w a)) (u_w w a)) = Some (a1, d1)
     else if a_step a || negb (a_paused a)
     then d1 = true /\ exists a2, turn_a (u_w w a) = Some a2 /\ a_s a1 = a_s a2 /\ a_n a1 = a_n a2 /\ a_w a1 = a_w a2 /\
          a_t a1 = now (a_s a2) /\ a_st a1 = a_st a2 /\ a_sc a1 = a_sc a2 /\ a_speed a1 = a_speed a2 /\ a_paused a1 = a_paused a2 /\
          a_synced a1 = a_synced a2 /\ a_video a1 = a_video a2 /\ a_vt a1 = a_vt a2 /\ a_rfps a1 = a_rfps a2 /\ a_on a1 = a_on a2 /\
          a_frames a1 = a_frames a2
     else d1 = true /\ a1 = u_w w a) /\
    d = d1 && (running (a_s a1) && a_on a1) /\
    c = (if d && (a_video a1 && negb (a_paused a1))
         then u_vt (a_vt a1 + a_speed a1 / a_rfps a1) (u_frames ((a_t a1, a_s a1) :: a_frames a1) a1) else a1).
Proof.
  intros g w a c d E R O. unfold Anim.pass in E. cbn [a_s a_n a_synced a_video a_step a_paused u_w] in E.
  match type of E with match ?m with _ => _ end = _ => destruct m as [[a1 d1]|] eqn:M; [|discriminate] end.
  exists a1, d1. split.
  - destruct (a_synced a || a_video a); [exact M|]. destruct (a_step a || negb (a_paused a)).
    + destruct (turn_a (u_w w a)) as [a2|]; [|discriminate]. injection M as M <-. split; auto. exists a2.
      destruct (quiet (cur (a_s a2))); subst a1; repeat split.
    + injection M as <- <-. auto.
  - destruct d1; [|injection E as <- <-; auto]. destruct (running (a_s a1) && a_on a1).
    + injection E as <- <-. split; auto.
    + injection E as <- <-. auto.
Qed.
Lemma next_after : forall s0 k s s1, sane s0 -> plain s0 k = Some s -> running s = true -> next k s = Some s1 -> xle (peek s) (clock s1).
Proof. intros s0 k s s1 H P R E. unfold Anim.next in E. rewrite R in E. eapply turn_after; eauto. Qed.
Lemma started_of : forall s0 k s, sane s0 -> plain s0 k = Some s -> started s.
Proof. intros s0 k s (_ & H) P. apply started_t. apply (H _ _ P). Qed.
Lemma peek_now : forall s, started s -> ended s = false -> xle (Fin (now s)) (peek s).
Proof.
  intros s H E. unfold peek. destruct (nonnil (pend s)); [cbn; lra|]. destruct (evl s) as [|x t] eqn:V.
  - destruct (eoe s); cbn; [lra|exact Logic.I].
  - cbn. apply (started_Fut _ H). rewrite V. destruct (ev_min_spec t x) as ([->|I] & _); [left; auto|right; auto].
Qed.
Lemma xltb_false_le : forall x t, xltb x (Fin t) = false -> xle (Fin t) x.
Proof. intros x t H. apply xltb_false_iff in H. exact H. Qed.
Lemma xle_tr : forall a b c, xle a b -> xle b c -> xle a c.
Proof. intros [a|] [b|] [c|]; cbn; try tauto. intros; lra. Qed.
(** the simulation has done everything that is due before t and nothing that is due after t *)
Definition right_at (t : Q) (k : nat) (s : env) : Prop :=
  now s <= t /\ forall s', next k s = Some s' -> xle (Fin t) (clock s').

(** the program itself does not switch synced on *)
Definition order_ok (x : action) : Prop :=
  unfilmed x /\ match x with AParam _ (Some true) _ _ _ => False | _ => True end.
Lemma act_unsynced : forall x a, order_ok x -> a_synced a = false -> a_synced (act x a) = false.
Proof.
  intros [sp sy fr an vd|b| | | | | | |] a (U & V) S; cbn in *; try contradiction; auto.
  - unfold params. destruct sp, sy as [[|]|], an, vd as [[|]|]; try contradiction; cbn; destruct (a_on a); cbn; destruct (a_video a); cbn; auto;
      repeat match goal with |- context [if ?x then _ else _] => destruct x; cbn; auto end.
  - unfold an_go. cbn. rewrite S. exact S.
  - destruct (a_paused a); cbn; auto. unfold an_go. cbn. rewrite S. exact S.
Qed.
Lemma acts_steady : forall l x, (forall y, In y l -> order_ok y) -> a_video x = false -> 0 <= a_speed x -> a_sc x <= a_w x ->
  a_video (acts l x) = false /\ 0 <= a_speed (acts l x) /\ a_sc (acts l x) <= a_w (acts l x) /\
  (a_synced x = false -> a_synced (acts l x) = false).
Proof.
  induction l as [|y l IH]; intros x V1 V2 V3 V4; cbn; auto.
  destruct (V1 y (or_introl eq_refl)) as (Y1 & Y2).
  destruct (act_shape y x Y1 V2 V3) as (W1 & W2 & W).
  assert (W4 : a_sc (act y x) <= a_w (act y x)).
  { destruct W as [(_ & _ & W3 & _)|(_ & W3 & _)]; rewrite W3, ?act_w; auto; lra. }
  destruct (IH (act y x)) as (Z1 & Z2 & Z3 & Z4); auto; [intros; apply V1; right; auto|].
  repeat split; auto. intros S. apply Z4. apply act_unsynced; auto. apply V1; left; auto.
Qed.
Lemma turn_steady : forall a b, (forall k s x, In x (orders k s) -> order_ok x) ->
  a_video a = false -> 0 <= a_speed a -> a_sc a <= a_w a -> turn_a a = Some b ->
  a_video b = false /\ 0 <= a_speed b /\ a_sc b <= a_w b /\ (a_synced a = false -> a_synced b = false).
Proof.
  intros a b U A B C E. destruct (turn_a_inv _ _ E) as (s1 & E1 & S1 & _ & _ & _ & EB).
  rewrite EB. destruct (running s1); [|cbn; auto]. apply (acts_steady (orders (a_n a) s1) (u_s s1 (S (a_n a)) a)); auto.
  intros y I. apply (U _ _ _ I).
Qed.
(** a pass keeps the clock after the simulation, and the frame it draws is right *)
Lemma pass_J : forall s0 g w a c d, sane s0 -> (forall k s x, In x (orders k s) -> order_ok x) -> on_track s0 a -> J a ->
  running (a_s a) = true -> a_on a = true -> a_w a <= w -> pass g w a = Some (c, d) ->
  J c /\ (d = true -> (a_synced a || a_step a || negb (a_paused a) = true -> right_at (a_t c) (a_n c) (a_s c)) /\
          (a_synced a = false -> a_step a || negb (a_paused a) = true -> a_t c = now (a_s c))).
Proof.
  intros s0 g w a c d H U T HJ R O L E. pose proof (J_w w a L HJ) as Jw.
  assert (TC : on_track s0 c) by (eapply pass_track; eauto).
  destruct (pass_cases _ _ _ _ _ E R O) as (a1 & d1 & M & D & EC).
  destruct HJ as (A & B & C & _). rewrite A in M. rewrite orb_false_r in M.
  assert (VF : a_video a1 = false -> c = a1).
  { intros V. rewrite EC, V. cbn. rewrite andb_false_r. auto. }
  destruct (a_synced a) eqn:S.
  - pose proof (K_start (u_w w a) S O Jw) as K0.
    destruct (catch_inv (fun x => on_track s0 x /\ K x)
      (fun x y H1 H2 H3 H4 H5 => conj (turn_track s0 x y (proj1 H1) H2 H5)
         (K_turn s0 x y H (fun k s z I => proj1 (U k s z I)) (proj1 H1) (proj2 H1) H2 H3 H4 H5))
      g (u_t (clocked (u_w w a)) (u_w w a)) a1 d1 (conj (track_same s0 a _ eq_refl eq_refl T) K0) R O M) as ((T1 & K1) & F).
    specialize (VF (proj1 K1)). clear EC. subst c. split; [apply K_J; auto|]. intros DT. split; [|discriminate]. intros _.
    rewrite DT in D. symmetry in D. apply andb_true_iff in D. destruct D as (D1 & D2). destruct (F D1) as (F1 & F2 & F3).
    split; [apply K1; auto|]. intros s' N. eapply xle_tr; [apply xltb_false_le; exact F3|]. eapply next_after; eauto.
  - destruct (a_step a || negb (a_paused a)) eqn:Q.
    + destruct M as (-> & a2 & M & M1 & M2 & M3 & M4 & M5 & M6 & M7 & M8 & M9 & M10 & M11 & M12 & M13 & M14).
      destruct (turn_steady (u_w w a) a2 U A B (proj1 (proj2 (proj2 Jw))) M) as (X1 & X2 & X3 & X4).
      rewrite M10 in VF. specialize (VF X1). clear EC. subst c.
      split.
      * split; [congruence|]. split; [rewrite M7; auto|]. split; [rewrite M6, M3; auto|]. intros _. split; [rewrite M1, M4; lra|].
        intros Y. rewrite M9, (X4 S) in Y. discriminate.
      * intros DT. split; [|intros _ _; rewrite M4, M1; auto]. intros _. rewrite M4, M1. split; [lra|]. intros s' N.
        rewrite <- M1 in N. rewrite DT in D. symmetry in D. cbn in D. apply andb_true_iff in D. destruct D as (D1 & D2).
        rewrite <- M1. eapply xle_tr; [apply peek_now; [eapply started_of; eauto|apply (proj2 H _ _ TC); auto] |].
        eapply next_after; eauto.
    + destruct M as (-> & ->). specialize (VF A). clear EC. subst c. split; [exact Jw|]. intros _. cbn [orb]. rewrite Q. split; intros; discriminate.
Qed.
Lemma J_shown : forall s0 (keys : action -> Prop) single a b, sane s0 -> (forall k s x, In x (orders k s) -> order_ok x) -> (forall x, keys x -> unfilmed x) ->
  shown fuel body orders quiet keys single a b -> a_n a = O -> a_s a = s0 -> J a -> J b.
Proof.
  intros s0 keys single a b H U V X N S HJ.
  induction X as [a|a b c g w d X IH R O L E|a b w x X IH L P|a b c w X IH R L Z E R'|a b c w X IH R O L E|a b w X IH R L]; auto;
    pose proof (C74_same_run _ _ _ _ X N) as T; rewrite S in T; specialize (IH N S HJ).
  - eapply pass_J; eauto.
  - apply J_act; auto. apply J_w; auto.
  - unfold Anim.single_step in E. destruct (turn_a (u_step true (u_w w b))) as [c1|] eqn:T1; [|discriminate]. injection E as <-.
    pose proof (J_w w b L IH) as (A & B & C & D).
    destruct (turn_steady (u_step true (u_w w b)) c1 U A B C T1) as (X1 & X2 & X3 & _).
    split; [exact X1|]. split; [exact X2|]. split; [cbn; lra|]. intros _. cbn. split; [lra|]. intros _.
    rewrite clocked_at; auto; cbn; lra.
  - pose proof (J_w w b L IH) as (A & B & C & D).
    destruct (turn_a_inv _ _ E) as (s1 & E1 & S1 & _ & _ & _ & EB).
    assert (Z : J (u_s s1 (Datatypes.S (a_n (u_w w b))) (u_w w b))).
    { split; [auto|]. split; [auto|]. split; [auto|]. intros Y. cbn in Y. congruence. }
    rewrite EB. destruct (running s1); auto. apply J_acts; auto. intros x I. apply (U _ _ _ I).
  - apply J_acts; [intros x I; apply (U _ _ _ I)|]. pose proof (J_w w b L IH) as (A & B & C & D).
    split; [auto|]. split; [auto|]. split; [auto|]. intros Y.
    pose proof (perform_now (body (a_n b) (a_s b)) (a_s b) (proj1 H _ _)) as Z.
    cbn [a_s u_s]. rewrite Z. exact (D Y).
Qed.

(** Without video, every frame shows the model at the animation time, unless the animation is paused and
    not synced: all that is due before that time has happened, and nothing that is due later.  The
    animation starts as animate(True) leaves it; an_synced is not used, and the program itself does
    not switch synced on. *)
Theorem C74_shows_model_partial : forall (keys : action -> Prop) single a b g w c, sane (a_s a) ->
  (forall k s x, In x (orders k s) -> order_ok x) -> (forall x, keys x -> unfilmed x) ->
  a_n a = O -> a_video a = false -> 0 <= a_speed a -> a_sc a <= a_w a -> a_t a = now (a_s a) -> a_st a = a_t a ->
  shown fuel body orders quiet keys single a b -> running (a_s b) = true -> a_on b = true -> a_w b <= w ->
  pass g w b = Some (c, true) ->
  (a_synced b || a_step b || negb (a_paused b) = true -> right_at (a_t c) (a_n c) (a_s c)) /\
  (a_synced b = false -> a_step b || negb (a_paused b) = true -> a_t c = now (a_s c)).
Proof.
  intros keys single a b g w c H U V N A B C T1 T2 X R O L E.
  assert (J0 : J a).
  { split; [auto|]. split; [auto|]. split; [auto|]. intros _. split; [rewrite T1; lra|]. intros _. unfold clocked. rewrite A, T2, T1.
    destruct (a_paused a); [lra|]. assert (0 <= (a_w a - a_sc a) * a_speed a) by (apply Qmult_le_0_compat; lra). lra. }
  assert (T : on_track (a_s a) b) by (apply (C74_same_run _ _ _ _ X N)).
  destruct (pass_J (a_s a) g w b c true H U T (J_shown _ _ _ _ _ H U V X N eq_refl J0) R O L E) as (_ & Z). apply Z; auto.
Qed.

(** *** the pace *)
(** what does not concern the window, the video or synced *)
Definition pacing (x : action) : Prop :=
  match x with
  | AParam sp sy fr an vd => (forall v, sp = Some v -> 0 <= v) /\ sy = None /\ fr = false /\ an = None /\ vd = None
  | ASynced => False
  | _ => True
  end.
(** the animation time has just been set from the clock *)
Definition fresh (a : anim) : Prop :=
  a_video a = false /\ a_synced a = true /\ a_on a = true /\ 0 <= a_speed a /\ a_t a == clocked a.
Lemma act_pacing : forall x a, pacing x -> a_video a = false -> 0 <= a_speed a ->
  a_video (act x a) = false /\ a_synced (act x a) = a_synced a /\ a_on (act x a) = a_on a /\ a_t (act x a) = a_t a /\ 0 <= a_speed (act x a) /\
  ((a_st (act x a) = a_st a /\ a_sc (act x a) = a_sc a /\ a_speed (act x a) = a_speed a /\ a_paused (act x a) = a_paused a) \/
   (a_st (act x a) = a_t a /\ a_sc (act x a) = a_w a)).
Proof.
  intros x a U V S. destruct x as [sp sy fr an vd|b| | | | | | |]; cbn in U; try contradiction.
  - destruct U as (U1 & -> & -> & -> & ->). cbn. unfold params. destruct sp as [v|].
    + cbn. rewrite V. destruct (a_on a) eqn:O; cbn; rewrite V, ?O; repeat split; auto.
    + cbn. rewrite V. destruct (a_on a) eqn:O; cbn; rewrite ?V, ?O; cbn; repeat split; auto 6.
  - cbn. repeat split; auto.
  - cbn. repeat split; auto. apply Qle_shift_div_l; lra.
  - cbn. repeat split; auto. lra.
  - cbn. unfold an_go, set_paused. cbn. destruct (a_synced a) eqn:Y; cbn; repeat split; auto.
  - cbn. repeat split; auto.
  - cbn. destruct (a_paused a); unfold an_go, an_menu, set_paused; cbn; [destruct (a_synced a) eqn:Y; cbn|]; repeat split; auto.
  - cbn. repeat split; auto 6.
Qed.
Lemma fresh_act : forall x a, pacing x -> fresh a -> fresh (act x a) /\ a_t (act x a) = a_t a.
Proof.
  intros x a P (A & B & C & D & E). destruct (act_pacing x a P A D) as (V & S & O & T & Sp & [(W1 & W2 & W3 & W4)|(W1 & W2)]).
  - split; [|exact T]. split; [auto|]. split; [congruence|]. split; [congruence|]. split; [auto|].
    rewrite T, E. rewrite (clocked_same a (act x a)); auto; [reflexivity|apply act_w].
  - split; [|exact T]. split; [auto|]. split; [congruence|]. split; [congruence|]. split; [auto|].
    rewrite clocked_at; auto; [reflexivity|congruence|rewrite act_w; auto].
Qed.
Lemma fresh_acts : forall l a, (forall x, In x l -> pacing x) -> fresh a -> fresh (acts l a) /\ a_t (acts l a) = a_t a.
Proof.
  induction l as [|x l IH]; intros a U H; cbn; auto. destruct (fresh_act x a (U x (or_introl eq_refl)) H) as (A & B).
  destruct (IH (act x a)) as (C & D); auto; [intros; apply U; right; auto|]. split; [exact C|]. unfold acts in D. congruence.
Qed.
Lemma fresh_pass : forall g w a c d, (forall k s x, In x (orders k s) -> pacing x) -> a_video a = false -> a_synced a = true -> a_on a = true ->
  0 <= a_speed a -> running (a_s a) = true -> pass g w a = Some (c, d) ->
  fresh c /\ a_t c == clocked (u_w w a) /\ a_w c = w /\
  (d = true -> running (a_s c) = true /\ xltb (peek (a_s c)) (Fin (a_t c)) = false).
Proof.
  intros g w a c d U V S O Sp R E. destruct (pass_cases _ _ _ _ _ E R O) as (a1 & d1 & M & D & EC).
  rewrite S in M. cbn [orb] in M.
  assert (F0 : fresh (u_t (clocked (u_w w a)) (u_w w a))).
  { split; [auto|]. split; [auto|]. split; [auto|]. split; [auto|]. unfold clocked. cbn. reflexivity. }
  destruct (catch_inv (fun x => fresh x /\ a_t x = clocked (u_w w a) /\ a_w x = w)) with (g := g) (a := u_t (clocked (u_w w a)) (u_w w a)) (b := a1) (d := d1)
    as ((F1 & F2 & F3) & F); auto.
  { intros x y (X1 & X2 & X3) _ _ _ X4. destruct (turn_a_inv _ _ X4) as (s1 & _ & _ & _ & W & _ & ->).
    assert (Z : fresh (u_s s1 (Datatypes.S (a_n x)) x)) by exact X1.
    destruct (running s1); [|auto]. destruct (fresh_acts (orders (a_n x) s1) _ (fun z I => U _ _ z I) Z) as (Z1 & Z2).
    split; [exact Z1|]. rewrite Z2, acts_w. auto. }
  assert (EC' : c = a1) by (rewrite EC; destruct F1 as (-> & _); cbn; rewrite andb_false_r; auto). clear EC. subst c.
  split; [auto|]. split; [rewrite F2; reflexivity|]. split; [auto|]. intros ->. symmetry in D. apply andb_true_iff in D. destruct D as (D1 & D2).
  destruct (F D1) as (G1 & G2 & G3). auto.
Qed.
(** keys pressed between two passes; M is a bound of the speeds *)
Inductive keyed (M : Q) : anim -> anim -> Prop :=
| ky_refl : forall a, keyed M a a
| ky_act : forall a b w x, keyed M a b -> a_w b <= w -> pacing x -> a_speed (act x (u_w w b)) <= M ->
    keyed M a (act x (u_w w b)).
Definition paced (M : Q) (a b : anim) : Prop :=
  a_video b = false /\ a_synced b = true /\ a_on b = true /\ 0 <= a_speed b /\ a_speed b <= M /\ a_s b = a_s a /\ a_n b = a_n a /\
  a_t b = a_t a /\ a_w a <= a_w b /\ (a_paused b = true -> a_st b == a_t a) /\
  a_t a <= clocked b /\ clocked b <= a_t a + M * (a_w b - a_w a).
Lemma clocked_bound : forall M w b, a_video b = false -> 0 <= a_speed b -> a_speed b <= M -> a_w b <= w ->
  clocked (u_w w b) <= clocked b + M * (w - a_w b).
Proof.
  intros M w b V S SM L. unfold clocked. cbn. rewrite V.
  assert (0 <= M * (w - a_w b)) by (apply Qmult_le_0_compat; lra).
  destruct (a_paused b); [lra|].
  assert ((w - a_w b) * a_speed b <= (w - a_w b) * M) by (rewrite (Qmult_comm _ (a_speed b)), (Qmult_comm _ M); apply Qmult_le_compat_r; lra).
  lra.
Qed.
Lemma keyed_paced : forall M a b, keyed M a b -> fresh a -> a_speed a <= M -> paced M a b.
Proof.
  intros M a b H F SM. induction H as [a|a b w x H IH L P B].
  - destruct F as (A & B & C & D & E). repeat split; auto; try lra.
    intros Pa. unfold clocked in E. rewrite A, Pa in E. symmetry. exact E.
  - destruct (IH F SM) as (A & A1 & A2 & A3 & A4 & A5 & A6 & A7 & A8 & A9 & A10 & A11).
    pose proof (clocked_later w b A A3 L) as G1. pose proof (clocked_bound M w b A A3 A4 L) as G2.
    destruct (act_pacing x (u_w w b) P A A3) as (V & S & O & T & Sp & W).
    assert (MM : 0 <= M) by lra.
    assert (G3 : 0 <= M * (w - a_w a)) by (apply Qmult_le_0_compat; lra).
    split; [auto|]. split; [rewrite S; auto|]. split; [rewrite O; auto|]. split; [auto|]. split; [auto|].
    split; [rewrite act_s; auto|]. split; [rewrite act_n; auto|]. split; [rewrite T; auto|]. split; [rewrite act_w; cbn; lra|].
    rewrite act_w. cbn [a_w u_w].
    destruct W as [(W1 & W2 & W3 & W4)|(W1 & W2)].
    + rewrite (clocked_same (u_w w b)); auto; [|apply act_w].
      split; [rewrite W4, W1; exact A9|]. split; [lra|]. lra.
    + assert (CE : clocked (act x (u_w w b)) == a_t a).
      { rewrite clocked_at; auto; [rewrite T; cbn; rewrite A7; reflexivity | rewrite T; auto | rewrite act_w; auto]. }
      split; [intros _; rewrite W1; cbn; rewrite A7; reflexivity|]. rewrite CE. split; lra.
Qed.

(** In synced mode the animation time does not go back and does not jump: between two frames it advances
    by at most the speed times the time on the clock, whatever is done about speed and pausing in between; if
    nothing is done, it advances by exactly that, or not at all while paused. *)
Theorem C74_pace : forall M b g1 w1 c c' g2 w2 d f1 f2, (forall k s x, In x (orders k s) -> pacing x) ->
  a_video b = false -> a_synced b = true -> a_on b = true -> 0 <= a_speed b -> running (a_s b) = true ->
  pass g1 w1 b = Some (c, f1) -> running (a_s c) = true -> a_speed c <= M -> keyed M c c' -> a_w c' <= w2 -> pass g2 w2 c' = Some (d, f2) ->
  a_t c <= a_t d /\ a_t d <= a_t c + M * (w2 - w1) /\
  (c' = c -> a_t d == a_t c + (if a_paused c then 0 else a_speed c * (w2 - w1))).
Proof.
  intros M b g1 w1 c c' g2 w2 d f1 f2 U V S O Sp R E1 RC SM KY L E2.
  destruct (fresh_pass g1 w1 b c f1 U V S O Sp R E1) as (F & _ & W1 & _).
  destruct (keyed_paced M c c' KY F SM) as (A & A1 & A2 & A3 & A4 & A5 & A6 & A7 & A8 & A9 & A10 & A11).
  assert (RC' : running (a_s c') = true) by (rewrite A5; auto).
  destruct (fresh_pass g2 w2 c' d f2 U A A1 A2 A3 RC' E2) as (_ & T2 & _ & _).
  pose proof (clocked_later w2 c' A A3 L) as G1. pose proof (clocked_bound M w2 c' A A3 A4 L) as G2.
  rewrite T2. rewrite W1 in A11. split; [lra|]. split; [lra|].
  intros ->. destruct F as (F1 & _ & _ & _ & F5). rewrite F5. unfold clocked. cbn. rewrite F1, W1. destruct (a_paused c); ring.
Qed.
(** While the animation is paused nothing happens and the animation time stands still. *)
Theorem C74_paused : forall M b g1 w1 c c' g2 w2 d f, (forall k s x, In x (orders k s) -> pacing x) ->
  a_video b = false -> a_synced b = true -> a_on b = true -> running (a_s b) = true -> 0 <= a_speed b ->
  pass g1 w1 b = Some (c, true) -> a_speed c <= M -> keyed M c c' -> a_paused c' = true -> a_w c' <= w2 ->
  pass g2 w2 c' = Some (d, f) ->
  a_s d = a_s c /\ a_n d = a_n c /\ a_t d == a_t c.
Proof.
  intros M b g1 w1 c c' g2 w2 d f U V S O R Sp E1 SM KY PA L E2.
  destruct (fresh_pass g1 w1 b c true U V S O Sp R E1) as (F & _ & W1 & FR). destruct (FR eq_refl) as (RC & PK).
  destruct (keyed_paced M c c' KY F SM) as (A & A1 & A2 & A3 & A4 & A5 & A6 & A7 & A8 & A9 & A10 & A11).
  assert (RC' : running (a_s c') = true) by (rewrite A5; auto).
  assert (CK : clocked (u_w w2 c') == a_t c) by (unfold clocked; cbn; rewrite A, PA; apply A9; auto).
  destruct (pass_cases _ _ _ _ _ E2 RC' A2) as (a1 & d1 & M1 & D & EC). rewrite A1 in M1. cbn [orb] in M1.
  assert (NX : xltb (peek (a_s c')) (Fin (clocked (u_w w2 c'))) = false).
  { apply xltb_false_iff. apply xltb_false_iff in PK. rewrite A5. destruct (peek (a_s c)); cbn in *; auto. lra. }
  assert (EQ : a1 = u_t (clocked (u_w w2 c')) (u_w w2 c')).
  { destruct g2; cbn in M1; cbn in NX; rewrite NX in M1; injection M1 as <- _; auto. }
  assert (EC' : d = a1) by (rewrite EC, EQ; cbn; rewrite A; cbn; rewrite andb_false_r; auto). rewrite EC', EQ. cbn. auto.
Qed.

(** *** video *)
(** what may be done while recording: no animation_parameters *)
Definition filming (x : action) : Prop := match x with AParam _ _ _ _ _ => False | _ => True end.
Lemma act_filming : forall x a, filming x -> a_video (act x a) = a_video a /\ a_vt (act x a) = a_vt a /\ a_t (act x a) = a_t a /\
  a_rfps (act x a) = a_rfps a /\ a_on (act x a) = a_on a /\ (0 <= a_speed a -> 0 <= a_speed (act x a)).
Proof.
  intros x a P. destruct x as [sp sy fr an vd|b| | | | | | |]; cbn in P; try contradiction; cbn; unfold an_go, an_menu, set_paused; cbn;
    try (destruct (a_paused a); cbn); try (destruct (a_synced a) eqn:Y; cbn); repeat split; auto; intros; try lra; apply Qle_shift_div_l; lra.
Qed.
Lemma acts_filming : forall l a, (forall x, In x l -> filming x) ->
  a_video (acts l a) = a_video a /\ a_vt (acts l a) = a_vt a /\ a_t (acts l a) = a_t a /\
  a_rfps (acts l a) = a_rfps a /\ a_on (acts l a) = a_on a /\ (0 <= a_speed a -> 0 <= a_speed (acts l a)).
Proof.
  induction l as [|x l IH]; intros a U; cbn; [repeat split; auto|].
  destruct (act_filming x a (U x (or_introl eq_refl))) as (A1 & A2 & A3 & A4 & A5 & A6).
  destruct (IH (act x a) (fun y I => U y (or_intror I))) as (B1 & B2 & B3 & B4 & B5 & B6). unfold acts in *.
  repeat split; try congruence. auto.
Qed.
Definition V (s0 : env) (a : anim) : Prop :=
  a_video a = true /\ a_on a = true /\ 0 <= a_speed a /\ 0 < a_rfps a /\ now (a_s a) <= a_vt a /\
  (forall t s, In (t, s) (a_frames a) -> exists k, plain s0 k = Some s /\ right_at t k s).
Lemma V_acts : forall s0 l a, (forall x, In x l -> filming x) -> V s0 a -> V s0 (acts l a).
Proof.
  intros s0 l a U (A & B & C & D & E & F). destruct (acts_filming l a U) as (B1 & B2 & B3 & B4 & B5 & B6).
  repeat split; rewrite ?B1, ?B2, ?B4, ?B5, ?acts_s, ?acts_frames; auto.
Qed.
Lemma V_pass : forall s0 g w a c d, sane s0 -> (forall k s x, In x (orders k s) -> filming x) -> on_track s0 a -> V s0 a ->
  running (a_s a) = true -> pass g w a = Some (c, d) -> V s0 c.
Proof.
  intros s0 g w a c d H U T HV R E. pose proof HV as (A & B & C & D & N & F).
  destruct (pass_cases _ _ _ _ _ E R B) as (a1 & d1 & M & DD & EC). rewrite A, orb_true_r in M.
  destruct (catch_inv (fun x => on_track s0 x /\ V s0 x /\ a_t x = a_vt x)) with (g := g) (a := u_t (clocked (u_w w a)) (u_w w a)) (b := a1) (d := d1)
    as ((T1 & V1 & E1) & Z); auto.
  { intros x y (X1 & X2 & X3) RX OX LX EX. pose proof (turn_now s0 x y H X1 RX LX EX) as NY.
    split; [eapply turn_track; eauto|]. destruct (turn_a_inv _ _ EX) as (s1 & _ & S1 & _ & W & _ & EY).
    assert (Z : V s0 (u_s s1 (S (a_n x)) x)).
    { destruct X2 as (A' & B' & C' & D' & N' & F'). repeat split; auto. cbn. rewrite <- S1, <- X3. exact NY. }
    rewrite EY. destruct (running s1); [|split; auto].
    split; [apply V_acts; auto; intros z I; apply (U _ _ _ I)|].
    destruct (acts_filming (orders (a_n x) s1) (u_s s1 (S (a_n x)) x) (fun z I => U _ _ z I)) as (_ & B2 & B3 & _).
    rewrite B2, B3. exact X3. }
  { split; [apply (track_same s0 a); auto|]. split; [exact HV|]. unfold clocked. cbn. rewrite A. reflexivity. }
  destruct (d && (a_video a1 && negb (a_paused a1))) eqn:Q; [|rewrite EC; exact V1].
  apply andb_true_iff in Q. destruct Q as (-> & _). symmetry in DD. apply andb_true_iff in DD. destruct DD as (D1 & _).
  destruct (Z D1) as (Z1 & Z2 & Z3). rewrite EC. destruct V1 as (A' & B' & C' & D' & N' & F').
  assert (0 <= a_speed a1 / a_rfps a1) by (apply Qle_shift_div_l; lra).
  repeat split; auto; [cbn; lra|]. cbn. intros t s [X|X]; [|auto]. injection X as <- <-. exists (a_n a1). split; [exact T1|].
  split; [rewrite E1; exact N'|]. intros s' Y. eapply xle_tr; [apply xltb_false_le; exact Z3|]. eapply next_after; eauto.
Qed.
(** Every frame of a video shows the model at the time of that frame, as long as animation_parameters
    (speed(), x0(), ... with a value) is not called and there is no single stepping. *)
Theorem C74_video_partial : forall (keys : action -> Prop) a b, sane (a_s a) ->
  (forall k s x, In x (orders k s) -> filming x) -> (forall x, keys x -> filming x) ->
  a_n a = O -> a_video a = true -> a_on a = true -> 0 <= a_speed a -> 0 < a_rfps a -> a_vt a = now (a_s a) -> a_frames a = [] ->
  shown fuel body orders quiet keys false a b ->
  forall t s, In (t, s) (a_frames b) -> exists k, plain (a_s a) k = Some s /\ right_at t k s.
Proof.
  intros keys a b H U UK N A B C D E F X.
  assert (V0 : V (a_s a) a) by (repeat split; auto; [rewrite E; lra|rewrite F; intros t s []]).
  enough (G : V (a_s a) b) by apply G.
  induction X as [a|a b c g w d X IH R O L P|a b w x X IH L P|a b c w X IH R L Z P R'|a b c w X IH R O L P|a b w X IH R L]; auto; try discriminate;
    pose proof (C74_same_run _ _ _ _ X N) as T; specialize (IH H N A B C D E F V0).
  - eapply V_pass; eauto.
  - apply (V_acts _ [x]); [intros y [<-|[]]; auto|exact IH].
  - destruct IH as (_ & IH & _). congruence.
  - apply V_acts; [intros y I; apply (U _ _ _ I)|]. destruct IH as (I1 & I2 & I3 & I4 & I5 & I6). repeat split; auto.
    cbn. rewrite perform_now; auto. apply (proj1 H).
Qed.
(** and the frames are evenly spaced, with as many frames per second as the file will have, as long as the
    speed is not changed. *)
Definition even_keys (x : action) : Prop := filming x /\ x <> AHalf /\ x <> ADouble.
Definition even (v0 d : Q) (a : anim) : Prop :=
  a_video a = true /\ a_on a = true /\ a_speed a / a_rfps a = d /\ a_vt a == v0 + inject_Z (Z.of_nat (length (a_frames a))) * d /\
  forall i t s, nth_error (rev (a_frames a)) i = Some (t, s) -> t == v0 + inject_Z (Z.of_nat i) * d.
Lemma act_even : forall x a, even_keys x -> a_speed (act x a) = a_speed a.
Proof.
  intros x a (P & P1 & P2). destruct x as [sp sy fr an vd|b| | | | | | |]; cbn in P; try contradiction; try congruence; cbn;
    unfold an_go, an_menu, set_paused; cbn; try (destruct (a_paused a); cbn); try (destruct (a_synced a) eqn:Y; cbn); auto.
Qed.
Lemma even_acts : forall v0 d l a, (forall x, In x l -> even_keys x) -> even v0 d a -> even v0 d (acts l a) /\ a_t (acts l a) = a_t a /\ a_vt (acts l a) = a_vt a.
Proof.
  intros v0 d. induction l as [|x l IH]; intros a U H; cbn; auto.
  pose proof (U x (or_introl eq_refl)) as UX. destruct (act_filming x a (proj1 UX)) as (A1 & A2 & A3 & A4 & A5 & A6).
  destruct (IH (act x a)) as (B1 & B2 & B3).
  - intros; apply U; right; auto.
  - destruct H as (H1 & H2 & H3 & H4 & H5). unfold even. rewrite A1, A2, A4, A5, act_frames, (act_even x a UX). auto.
  - unfold acts in *. rewrite B2, B3. auto.
Qed.
Lemma even_pass : forall v0 dd g w a c d, (forall k s x, In x (orders k s) -> even_keys x) -> even v0 dd a ->
  running (a_s a) = true -> pass g w a = Some (c, d) -> even v0 dd c.
Proof.
  intros v0 dd g w a c d U HV R E. pose proof HV as (A & B & _).
  destruct (pass_cases _ _ _ _ _ E R B) as (a1 & d1 & M & DD & EC). rewrite A, orb_true_r in M.
  destruct (catch_inv (fun x => even v0 dd x /\ a_t x = a_vt x)) with (g := g) (a := u_t (clocked (u_w w a)) (u_w w a)) (b := a1) (d := d1)
    as ((V1 & E1) & Z); auto.
  { intros x y (X2 & X3) RX OX LX EX. destruct (turn_a_inv _ _ EX) as (s1 & _ & S1 & _ & W & _ & EY).
    assert (Z : even v0 dd (u_s s1 (S (a_n x)) x)) by exact X2.
    rewrite EY. destruct (running s1); [|split; auto].
    destruct (even_acts v0 dd (orders (a_n x) s1) (u_s s1 (S (a_n x)) x) (fun z I => U _ _ z I) Z) as (B1 & B2 & B3).
    split; auto. rewrite B2, B3. exact X3. }
  { split; [exact HV|]. unfold clocked. cbn. rewrite A. reflexivity. }
  destruct (d && (a_video a1 && negb (a_paused a1))) eqn:Q; [|rewrite EC; exact V1].
  rewrite EC. destruct V1 as (A' & B' & C' & D' & F'). repeat split; auto.
  - cbn [a_vt a_frames u_vt u_frames length]. rewrite Nat2Z.inj_succ, <- Z.add_1_r, inject_Z_plus, C', D'. ring.
  - cbn [a_frames u_vt u_frames rev]. intros i t s N.
    destruct (Nat.lt_ge_cases i (length (rev (a_frames a1)))) as [LT|GE].
    + rewrite nth_error_app1 in N by auto. eapply F'; eauto.
    + rewrite nth_error_app2 in N by auto. destruct (i - length (rev (a_frames a1)))%nat as [|j] eqn:J.
      * cbn in N. injection N as <- <-. rewrite rev_length in J, GE. rewrite E1, D'. replace i with (length (a_frames a1)) by lia. reflexivity.
      * cbn in N. destruct j; discriminate.
Qed.
Theorem C74_video_spacing_partial : forall (keys : action -> Prop) a b,
  (forall k s x, In x (orders k s) -> even_keys x) -> (forall x, keys x -> even_keys x) ->
  a_video a = true -> a_on a = true -> a_frames a = [] ->
  shown fuel body orders quiet keys false a b ->
  forall i t s, nth_error (rev (a_frames b)) i = Some (t, s) ->
  t == a_vt a + inject_Z (Z.of_nat i) * (a_speed a / a_rfps a).
Proof.
  intros keys a b U UK A B F X.
  assert (V0 : even (a_vt a) (a_speed a / a_rfps a) a).
  { repeat split; auto; rewrite F; cbn; [ring|]. intros [|i] t s Z; discriminate. }
  enough (G : even (a_vt a) (a_speed a / a_rfps a) b) by apply G.
  induction X as [a|a b c g w d X IH R O L P|a b w x X IH L P|a b c w X IH R L Z P R'|a b c w X IH R O L P|a b w X IH R L]; auto; try discriminate;
    specialize (IH A B F V0).
  - eapply even_pass; eauto.
  - apply (even_acts _ _ [x]); [intros y [<-|[]]; auto|exact IH].
  - destruct IH as (_ & IH & _). congruence.
  - apply even_acts; [intros y I; apply (U _ _ _ I)|]. exact IH.
Qed.
End Fixed.

(** ** Cases *)
(** a boolean check of [sane] for a program that comes to an end *)
Fixpoint saneb (fuel : nat) (body : nat -> env -> list op) (j k : nat) (s : env) : bool :=
  negb (c_skip (comps s (cur s))) && (negb (running s) || negb (ended s)) &&
  match j with
  | O => negb (running s) && Nat.eqb (cur s) main
  | S j =>
    if running s then
      match script fuel [OStep] s with
      | Some s1 => if running s1 then match script fuel (body k s1) s1 with Some s2 => saneb fuel body j (S k) s2 | None => false end
                   else saneb fuel body j (S k) s1
      | None => false
      end
    else match script fuel (body k s) s with Some s2 => saneb fuel body j (S k) s2 | None => false end
  end.
Lemma script_perform : forall n l s s', script n l s = Some s' -> perform n l s = s'.
Proof.
  induction l as [|o t IH]; intros s s' H; cbn [script] in H; [cbn; congruence|].
  destruct (wfb s o); [|discriminate]. destruct (exec n o s) as [s1 [u|e]] eqn:E; [|discriminate]. cbn. rewrite E. cbn. apply IH; auto.
Qed.
Lemma reach_t_script : forall n l s s', reach_t s -> script n l s = Some s' -> reach_t s'.
Proof.
  intros n l s s' (t0 & R & sv & kc & hp & y & d & H) E. exists t0, R, sv, kc, hp, y, d.
  eapply runs_t_trans; [exact H|]. eapply script_runs_t; eauto.
Qed.
Lemma saneb_ok : forall fuel body, (forall k s, (0 < k)%nat -> cur s = main -> body k s = []) ->
  forall s0 j k s, plain fuel body s0 k = Some s -> reach_t s -> saneb fuel body j k s = true -> (0 < j + k)%nat ->
  forall i s', plain fuel body s0 (i + k) = Some s' ->
  reach_t s' /\ c_skip (comps s' (cur s')) = false /\ (running s' = true -> ended s' = false).
Proof.
  intros fuel body HB s0. induction j as [|j IH]; intros k s P R H L i s' P'.
  - cbn [saneb] in H. rewrite !andb_true_iff in H. destruct H as ((H1 & H2) & H3 & H4).
    assert (Z : forall i, plain fuel body s0 (i + k) = Some s).
    { induction i0 as [|n IHn]; [exact P|]. cbn [Nat.add plain]. rewrite IHn. unfold next.
      rewrite (proj1 (negb_true_iff _) H3). rewrite HB; [reflexivity| lia | apply Nat.eqb_eq; auto]. }
    rewrite Z in P'. injection P' as <-. apply negb_true_iff in H1, H3. split; [auto|]. split; [auto|]. congruence.
  - cbn [saneb] in H. rewrite !andb_true_iff in H. destruct H as ((H1 & H2) & H3). apply negb_true_iff in H1.
    destruct i as [|i].
    + cbn [Nat.add] in P'. rewrite P in P'. injection P' as <-. split; [auto|]. split; [auto|]. intros X. rewrite X in H2.
      apply negb_true_iff. exact H2.
    + replace (S i + k)%nat with (i + S k)%nat in P' by lia.
      assert (G : exists s2, plain fuel body s0 (S k) = Some s2 /\ reach_t s2 /\ saneb fuel body j (S k) s2 = true).
      { cbn [plain]. rewrite P. unfold next, turn. destruct (running s).
        - destruct (script fuel [OStep] s) as [s1|] eqn:E1; [|discriminate].
          pose proof (reach_t_script _ _ _ _ R E1) as R1. cbn [script] in E1. destruct (wfb s OStep); [|discriminate].
          destruct (exec fuel OStep s) as [s2 [u|e]]; [|discriminate]. injection E1 as ->.
          destruct (running s1); [|exists s1; auto].
          destruct (script fuel (body k s1) s1) as [s2|] eqn:E2; [|discriminate]. exists s2. rewrite (script_perform _ _ _ _ E2).
          split; [auto|]. split; [eapply reach_t_script; eauto|auto].
        - destruct (script fuel (body k s) s) as [s2|] eqn:E2; [|discriminate]. exists s2. rewrite (script_perform _ _ _ _ E2).
          split; [auto|]. split; [eapply reach_t_script; eauto|auto]. }
      destruct G as (s2 & G1 & G2 & G3). eapply (IH (S k) s2); eauto. lia.
Qed.

(** animated executions as functions *)
Inductive cmd := CPass (w : Q) | CAct (w : Q) (x : action) | CSingle (w : Q) | CMain (w : Q).
Section Scripts.
Variable body : nat -> env -> list op.
Variable orders : nat -> env -> list action.
Definition nobody (c : nat) : bool := false.
Definition do_cmd (c : cmd) (a : anim) : option anim :=
  match c with
  | CPass w => if running (a_s a) && a_on a && Qle_bool (a_w a) w then
                 match pass 19 body orders nobody 19 w a with Some (b, _) => Some b | None => None end
               else None
  | CAct w x => if Qle_bool (a_w a) w then Some (act x (u_w w a)) else None
  | CSingle w => if running (a_s a) && Qle_bool (a_w a) w then
                   match single_step 19 body orders (u_w w a) with
                   | Some b => if running (a_s b) then Some b else None
                   | None => None
                   end
                 else None
  | CMain w => if negb (running (a_s a)) && Qle_bool (a_w a) w then
                 Some (acts (orders (a_n a) (a_s a)) (u_s (perform 19 (body (a_n a) (a_s a)) (a_s a)) (S (a_n a)) (u_w w a)))
               else None
  end.
Fixpoint do_cmds (l : list cmd) (a : anim) : option anim :=
  match l with [] => Some a | c :: t => match do_cmd c a with Some b => do_cmds t b | None => None end end.
Definition allowed (keys : action -> Prop) (single : bool) (c : cmd) : Prop :=
  match c with CAct _ x => keys x | CSingle _ => single = true | _ => True end.
Lemma do_shown : forall keys single l a0 a b, shown 19 body orders nobody keys single a0 a -> Forall (allowed keys single) l ->
  do_cmds l a = Some b -> shown 19 body orders nobody keys single a0 b.
Proof.
  induction l as [|c l IH]; intros a0 a b H F E; cbn in E; [congruence|].
  destruct (do_cmd c a) as [a1|] eqn:E1; [|discriminate]. apply (IH a0 a1 b); auto; [|inversion F; auto].
  assert (A : allowed keys single c) by (inversion F; auto). clear IH E F. destruct c as [w|w x|w|w]; cbn in E1.
  - destruct (running (a_s a)) eqn:R; [|discriminate]. destruct (a_on a) eqn:O; [|discriminate]. destruct (Qle_bool (a_w a) w) eqn:L; [|discriminate].
    cbn in E1. destruct (pass 19 body orders nobody 19 w a) as [[b1 d]|] eqn:P; [|discriminate]. injection E1 as <-.
    apply (sh_pass _ _ _ _ _ _ a0 a b1 19 w d); auto. apply Qle_bool_iff; auto.
  - destruct (Qle_bool (a_w a) w) eqn:L; [|discriminate]. injection E1 as <-. apply sh_act; auto. apply Qle_bool_iff; auto.
  - destruct (running (a_s a)) eqn:R; [|discriminate]. destruct (Qle_bool (a_w a) w) eqn:L; [|discriminate]. cbn in E1.
    destruct (single_step 19 body orders (u_w w a)) as [b1|] eqn:P; [|discriminate]. destruct (running (a_s b1)) eqn:R1; [|discriminate].
    injection E1 as <-. apply (sh_single _ _ _ _ _ _ a0 a b1 w); auto. apply Qle_bool_iff; auto.
  - destruct (running (a_s a)) eqn:R; [discriminate|]. destruct (Qle_bool (a_w a) w) eqn:L; [|discriminate]. cbn in E1. injection E1 as <-.
    apply sh_main; auto. apply Qle_bool_iff; auto.
Qed.
End Scripts.

(** component 1 holds for d again and again; the main program runs for [till] *)
Definition beat (d till : Q) (k : nat) (s : env) : list op :=
  if Nat.eqb (cur s) main
  then if Nat.eqb k 0 then [OCreate 1 None (Fin 0) (Fin 0) false false None; ORun (SDur (Fin till)) PInf false None] else []
  else [OHold (cur s) (SDur (Fin d)) (Fin 0) false 0 None].
Definition silent (k : nat) (s : env) : list action := [].
(** animate(True) at time 0, clock 0 *)
Definition begin (synced video : bool) (rfps : Q) : anim :=
  Build_anim env0 0 0 0 0 0 1 false synced video 0 rfps false true [].
Lemma beat_end : forall d till k s, (0 < k)%nat -> cur s = main -> beat d till k s = [].
Proof. intros d till k s L C. unfold beat. rewrite C, Nat.eqb_refl. destruct k; [lia|reflexivity]. Qed.
Lemma beat_steps : forall d till k s, ~ In OStep (beat d till k s).
Proof. intros d till k s. unfold beat. destruct (Nat.eqb (cur s) main), (Nat.eqb k 0); cbn; intuition discriminate. Qed.
Lemma reach_t0 : reach_t env0.
Proof. exists 0. do 6 eexists. apply rt_refl. Qed.
Lemma sane_of : forall fuel body j, (forall k s, (0 < k)%nat -> cur s = main -> body k s = []) -> (forall k s, ~ In OStep (body k s)) ->
  saneb fuel body (S j) 0 env0 = true -> sane fuel body env0.
Proof.
  intros fuel body j A B C. split; [exact B|]. intros k s P.
  apply (saneb_ok fuel body A env0 (S j) 0%nat env0 eq_refl reach_t0 C ltac:(lia) k). rewrite Nat.add_0_r. exact P.
Qed.
Lemma sane_beat : sane 19 (beat 1 10) env0.
Proof. apply (sane_of 19 (beat 1 10) 14); [apply beat_end|apply beat_steps|]. vm_compute. reflexivity. Qed.
Lemma sane_beat5 : sane 19 (beat 5 100) env0.
Proof. apply (sane_of 19 (beat 5 100) 40); [apply beat_end|apply beat_steps|]. vm_compute. reflexivity. Qed.
Lemma silent_ok : forall (P : action -> Prop) k s x, In x (silent k s) -> P x.
Proof. intros P k s x []. Qed.
Lemma run_case : forall body orders keys single l a (P : anim -> bool), Forall (allowed keys single) l ->
  match do_cmds body orders l a with Some b => P b | None => false end = true ->
  exists b, shown 19 body orders nobody keys single a b /\ P b = true.
Proof.
  intros body orders keys single l a P F H. destruct (do_cmds body orders l a) as [b|] eqn:E; [|discriminate]. exists b. split; auto.
  eapply do_shown; [apply sh_refl|exact F|exact E].
Qed.
Lemma run_pass : forall body orders keys single l a w (P : anim -> anim -> bool), Forall (allowed keys single) l ->
  match do_cmds body orders l a with
  | Some b => match pass 19 body orders nobody 19 w b with
              | Some (c, true) => running (a_s b) && a_on b && Qle_bool (a_w b) w && P b c
              | _ => false
              end
  | None => false
  end = true ->
  exists b c, shown 19 body orders nobody keys single a b /\ running (a_s b) = true /\ a_on b = true /\ a_w b <= w /\
    pass 19 body orders nobody 19 w b = Some (c, true) /\ P b c = true.
Proof.
  intros body orders keys single l a w P F H. destruct (do_cmds body orders l a) as [b|] eqn:E; [|discriminate].
  destruct (pass 19 body orders nobody 19 w b) as [[c []]|] eqn:E2; try discriminate.
  rewrite !andb_true_iff in H. destruct H as (((H1 & H2) & H3) & H4). apply Qle_bool_iff in H3. exists b, c.
  split; [eapply do_shown; [apply sh_refl|exact F|exact E]|auto].
Qed.
Definition eqq (x y : Q) : bool := Qeq_bool x y.

(** the first frame after 2.5 seconds, at speed 1 from the start and 2 after 1.5 seconds, shows the state at
    time 3.5: after the event at 3 and before the one at 4 *)
Example C74_case : exists b c,
  sane 19 (beat 1 10) (a_s (begin true false 30)) /\
  shown 19 (beat 1 10) silent nobody pacing false (begin true false 30) b /\ running (a_s b) = true /\ a_on b = true /\ a_w b <= 5#2 /\
  pass 19 (beat 1 10) silent nobody 19 (5#2) b = Some (c, true) /\ a_t c == 7#2 /\ now (a_s c) == 3 /\
  peek (a_s c) = Fin 4 /\ a_synced b || a_step b || negb (a_paused b) = true.
Proof.
  destruct (run_pass (beat 1 10) silent pacing false [CMain 0; CPass (1#10); CPass (1#1); CPass (3#2); CAct (3#2) ADouble] (begin true false 30) (5#2)
    (fun b c => eqq (a_t c) (7#2) && eqq (now (a_s c)) 3 && match peek (a_s c) with Fin x => eqq x 4 && Zeq_bool (Qnum x) 4 && Pos.eqb (Qden x) 1 | PInf => false end && a_synced b)) as (b & c & A1 & A2 & A3 & A4 & A5 & A6).
  - repeat constructor.
  - vm_compute. reflexivity.
  - exists b, c. split; [apply sane_beat|]. split; [exact A1|]. split; [exact A2|]. split; [exact A3|]. split; [exact A4|]. split; [exact A5|].
    rewrite !andb_true_iff in A6. destruct A6 as (((B1 & B2) & B3) & B4). split; [apply Qeq_bool_iff; exact B1|]. split; [apply Qeq_bool_iff; exact B2|].
    split; [|rewrite B4; reflexivity]. destruct (peek (a_s c)) as [x|]; [|discriminate]. destruct x as [n dd]. rewrite !andb_true_iff in B3.
    destruct B3 as ((_ & C1) & C2). apply Zeq_bool_eq in C1. apply Pos.eqb_eq in C2. cbn in C1, C2. subst. reflexivity.
Qed.
(** pausing at 1.5, going on at 3: the clock shows 1.5 meanwhile and 2 at 3.5 *)
Example C74_case_paused : exists b c, shown 19 (beat 1 10) silent nobody pacing false (begin true false 30) b /\
  running (a_s b) = true /\ a_on b = true /\ a_synced b = true /\ a_paused b = true /\ a_t b == 3#2 /\
  pass 19 (beat 1 10) silent nobody 19 3 b = Some (c, true) /\ a_t c == 3#2.
Proof.
  destruct (run_pass (beat 1 10) silent pacing false [CMain 0; CPass (1#1); CPass (3#2); CAct (8#5) AMenuGo] (begin true false 30) 3
    (fun b c => eqq (a_t b) (3#2) && eqq (a_t c) (3#2) && a_synced b && a_paused b)) as (b & c & A1 & A2 & A3 & A4 & A5 & A6).
  - repeat constructor.
  - vm_compute. reflexivity.
  - exists b, c. rewrite !andb_true_iff in A6. destruct A6 as (((B1 & B2) & B3) & B4). repeat split; auto; apply Qeq_bool_iff; assumption.
Qed.
(** a video with two frames per second: the time of each frame and the time of the state it shows *)
Fixpoint times_are (l : list (Q * env)) (m : list (Q * Q)) : bool :=
  match l, m with
  | [], [] => true
  | (t, s) :: l, (u, v) :: m => eqq t u && eqq (now s) v && times_are l m
  | _, _ => false
  end.
Example C74_case_video : exists b, shown 19 (beat 1 10) silent nobody even_keys false (begin true true 2) b /\
  times_are (rev (a_frames b)) [(0, 0); (1#2, 0); (1, 0); (3#2, 1); (2, 1); (5#2, 2)] = true.
Proof.
  apply run_case with (l := [CMain 0; CPass 1; CPass 2; CAct 3 AStep; CPass 4; CPass 5; CPass 8; CPass 9]).
  - repeat constructor; discriminate.
  - vm_compute. reflexivity.
Qed.

(** ** Where it goes wrong *)
Definition behind (b c : anim) : bool := negb (Qle_bool (now (a_s c)) (a_t c)).
Lemma behind_lt : forall b c, behind b c = true -> a_t c < now (a_s c).
Proof. intros b c H. unfold behind in H. apply negb_true_iff in H. apply Qnot_le_lt. intros X. apply Qle_bool_iff in X. congruence. Qed.
(** Changing from not synced to synced with the menu button (an_synced 13853) does not restart the clock: the
    frame shows time 0.3, while the simulation is at 5. *)
Theorem C74_synced_button_refuted : exists b c, sane 19 (beat 5 100) env0 /\
  shown 19 (beat 5 100) silent nobody (fun x => x = ASynced) false (begin false false 30) b /\ running (a_s b) = true /\ a_on b = true /\
  pass 19 (beat 5 100) silent nobody 19 (3#10) b = Some (c, true) /\ a_synced b = true /\ a_t c < now (a_s c).
Proof.
  destruct (run_pass (beat 5 100) silent (fun x => x = ASynced) false [CMain 0; CPass 0; CPass (1#10); CAct (2#10) ASynced] (begin false false 30) (3#10)
    (fun b c => a_synced b && behind b c)) as (b & c & A1 & A2 & A3 & A4 & A5 & A6).
  - repeat constructor.
  - vm_compute. reflexivity.
  - exists b, c. apply andb_true_iff in A6. destruct A6 as (B1 & B2). split; [apply sane_beat5|]. pose proof (behind_lt b c B2). auto 10.
Qed.
(** Neither does synced(True) by a process restart it properly: the time of the previous event is taken. *)
Definition syncing (k : nat) (s : env) : list action :=
  if Nat.eqb k 2 then [AParam None (Some true) false None None] else [].
Theorem C74_synced_by_process_refuted : exists b c, sane 19 (beat 5 100) env0 /\
  shown 19 (beat 5 100) syncing nobody (fun _ => False) false (begin false false 30) b /\ running (a_s b) = true /\ a_on b = true /\
  pass 19 (beat 5 100) syncing nobody 19 (3#10) b = Some (c, true) /\ a_synced b = true /\ a_t c < now (a_s c).
Proof.
  destruct (run_pass (beat 5 100) syncing (fun _ => False) false [CMain 0; CPass 0; CPass (1#10)] (begin false false 30) (3#10)
    (fun b c => a_synced b && behind b c)) as (b & c & A1 & A2 & A3 & A4 & A5 & A6).
  - repeat constructor.
  - vm_compute. reflexivity.
  - exists b, c. apply andb_true_iff in A6. destruct A6 as (B1 & B2). split; [apply sane_beat5|]. pose proof (behind_lt b c B2). auto 10.
Qed.
(** When a recording is stopped, the clock is not restarted either. *)
Theorem C74_video_off_refuted : exists b c, sane 19 (beat 1 10) env0 /\
  shown 19 (beat 1 10) silent nobody (fun x => x = AParam None None false None (Some None)) false (begin true true 1) b /\
  running (a_s b) = true /\ a_on b = true /\
  pass 19 (beat 1 10) silent nobody 19 (1#2) b = Some (c, true) /\ a_synced b = true /\ a_t c < now (a_s c).
Proof.
  destruct (run_pass (beat 1 10) silent (fun x => x = AParam None None false None (Some None)) false
    [CMain 0; CPass 0; CPass (1#10); CPass (2#10); CPass (3#10); CPass (4#10); CAct (4#10) (AParam None None false None (Some None))] (begin true true 1) (1#2)
    (fun b c => a_synced b && behind b c)) as (b & c & A1 & A2 & A3 & A4 & A5 & A6).
  - repeat constructor.
  - vm_compute. reflexivity.
  - exists b, c. apply andb_true_iff in A6. destruct A6 as (B1 & B2). split; [apply sane_beat|]. pose proof (behind_lt b c B2). auto 10.
Qed.
(** Any animation_parameters call while recording sets the video time back to the time of the present event
    (11903-11904): with two frames per second, two frames show time 1.5. *)
Definition panning (k : nat) (s : env) : list action :=
  if Nat.eqb k 2 then [AParam None None false None None] else [].
Theorem C74_video_spacing_refuted : exists b, sane 19 (beat 1 10) env0 /\
  shown 19 (beat 1 10) panning nobody (fun _ => False) false (begin true true 2) b /\
  times_are (rev (a_frames b)) [(0, 0); (1#2, 0); (1, 0); (3#2, 1); (3#2, 1); (2, 1)] = true.
Proof.
  destruct (run_case (beat 1 10) panning (fun _ => False) false [CMain 0; CPass 1; CPass 2; CPass 4; CPass 5; CPass 8; CPass 9] (begin true true 2)
    (fun b => times_are (rev (a_frames b)) [(0, 0); (1#2, 0); (1, 0); (3#2, 1); (3#2, 1); (2, 1)])) as (b & A & B).
  - repeat constructor.
  - vm_compute. reflexivity.
  - exists b. split; [apply sane_beat|]. auto.
Qed.
(** If a process lowers the speed meanwhile, a frame can show a later state than that of its time: a frame
    for time 1.2 that shows the state at time 1.9. *)
Definition ragged (k : nat) (s : env) : list op :=
  if Nat.eqb (cur s) main
  then if Nat.eqb k 0 then [OCreate 1 None (Fin 0) (Fin 0) false false None; ORun (SDur (Fin 10)) PInf false None] else []
  else [OHold (cur s) (SDur (Fin (if Nat.eqb k 2 then 9#10 else 1))) (Fin 0) false 0 None].
Definition slowing (k : nat) (s : env) : list action :=
  if Nat.eqb k 2 then [AParam (Some (1#10)) None false None None] else [].
Lemma sane_ragged : sane 19 ragged env0.
Proof.
  apply (sane_of 19 ragged 14); [| |vm_compute; reflexivity].
  - intros k s L C. unfold ragged. rewrite C, Nat.eqb_refl. destruct k; [lia|reflexivity].
  - intros k s. unfold ragged. destruct (Nat.eqb (cur s) main), (Nat.eqb k 0); cbn; intuition discriminate.
Qed.
Theorem C74_video_speed_refuted : exists b t s, sane 19 ragged env0 /\
  shown 19 ragged slowing nobody (fun _ => False) false (begin true true (1#2)) b /\ In (t, s) (a_frames b) /\ t == 6#5 /\ now s == 19#10.
Proof.
  destruct (run_case ragged slowing (fun _ => False) false [CMain 0; CPass 1; CPass 2; CPass 4] (begin true true (1#2))
    (fun b => match a_frames b with (t, s) :: _ => eqq t (6#5) && eqq (now s) (19#10) | [] => false end)) as (b & A & B).
  - repeat constructor.
  - vm_compute. reflexivity.
  - destruct (a_frames b) as [|[t s] l] eqn:F; [discriminate|]. apply andb_true_iff in B. destruct B as (B1 & B2).
    exists b, t, s. split; [apply sane_ragged|]. split; [exact A|]. split; [rewrite F; left; auto|]. split; apply Qeq_bool_iff; assumption.
Qed.
(** With a component that skips standby, peek() promises an event at the present time that does not come:
    the frame for time 1 shows the state at time 7. *)
Definition skipper (k : nat) (s : env) : list op :=
  match k with
  | O => [OCreate 1 None (Fin 0) (Fin 0) false false None; OCreate 2 None (Fin 0) (Fin 0) false true None; ORun (SDur (Fin 100)) PInf false None]
  | _ => if Nat.eqb (cur s) 1 then [OStandby 1] else if Nat.eqb (cur s) 2 then [OHold 2 (SDur (Fin 7)) (Fin 0) false 0 None] else []
  end.
Theorem C74_skip_standby_refuted : exists b c,
  shown 19 skipper silent nobody (fun _ => False) false (begin true false 30) b /\ running (a_s b) = true /\ a_on b = true /\
  pass 19 skipper silent nobody 19 1 b = Some (c, true) /\ a_t c == 1 /\ now (a_s c) == 7.
Proof.
  destruct (run_pass skipper silent (fun _ => False) false [CMain 0] (begin true false 30) 1
    (fun b c => eqq (a_t c) 1 && eqq (now (a_s c)) 7)) as (b & c & A1 & A2 & A3 & A4 & A5 & A6).
  - repeat constructor.
  - vm_compute. reflexivity.
  - exists b, c. apply andb_true_iff in A6. destruct A6 as (B1 & B2). apply Qeq_bool_iff in B1, B2. auto 10.
Qed.
(** The single step key (13860) when not synced: if the step ends the run, the loop makes another step, since
    _step_pressed is still set (13474), before it finds that the run has ended: run(5) returns at time 8. *)
Theorem C74_single_step_refuted : exists b c d, sane 19 (beat 4 5) env0 /\
  shown 19 (beat 4 5) silent nobody (fun x => x = AMenu) true (begin false false 30) b /\
  single_step 19 (beat 4 5) silent b = Some c /\ running (a_s c) = false /\ cur (a_s c) = main /\ now (a_s c) == 5 /\
  pass 19 (beat 4 5) silent nobody 19 (a_w c) c = Some (d, false) /\ cur (a_s d) = 1%nat /\ now (a_s d) == 8.
Proof.
  destruct (run_case (beat 4 5) silent (fun x => x = AMenu) true [CMain 0; CPass 1; CAct 2 AMenu; CSingle 3] (begin false false 30)
    (fun b => match single_step 19 (beat 4 5) silent b with
              | Some c => negb (running (a_s c)) && Nat.eqb (cur (a_s c)) main && eqq (now (a_s c)) 5 &&
                  match pass 19 (beat 4 5) silent nobody 19 (a_w c) c with
                  | Some (d, false) => Nat.eqb (cur (a_s d)) 1 && eqq (now (a_s d)) 8
                  | _ => false
                  end
              | None => false
              end)) as (b & A & B).
  - repeat constructor.
  - vm_compute. reflexivity.
  - destruct (single_step 19 (beat 4 5) silent b) as [c|] eqn:E; [|discriminate].
    destruct (pass 19 (beat 4 5) silent nobody 19 (a_w c) c) as [[d []]|] eqn:E2; rewrite ?andb_false_r in B; try discriminate.
    rewrite !andb_true_iff in B. destruct B as (((B1 & B2) & B3) & B4 & B5). exists b, c, d.
    split; [apply (sane_of 19 (beat 4 5) 14); [apply beat_end|apply beat_steps|vm_compute; reflexivity]|].
    apply negb_true_iff in B1. apply Nat.eqb_eq in B2, B4. apply Qeq_bool_iff in B3, B5. auto 12.
Qed.
(** A new title (or width or height) for the window of a paused animation makes it go on, and the animation
    time goes back to that of the last event. *)
Theorem C74_title_refuted : exists b, shown 19 (beat 1 10) silent nobody pacing false (begin true false 30) b /\
  a_paused b = true /\ a_t b == 3#2 /\
  a_paused (act (AParam None None true None None) b) = false /\ a_t (act (AParam None None true None None) b) == 1.
Proof.
  destruct (run_case (beat 1 10) silent pacing false [CMain 0; CPass (1#1); CPass (3#2); CAct (8#5) AMenuGo; CPass 2] (begin true false 30)
    (fun b => a_paused b && eqq (a_t b) (3#2) && negb (a_paused (act (AParam None None true None None) b)) &&
              eqq (a_t (act (AParam None None true None None) b)) 1)) as (b & A & B).
  - repeat constructor.
  - vm_compute. reflexivity.
  - exists b. rewrite !andb_true_iff in B. destruct B as (((B1 & B2) & B3) & B4). apply negb_true_iff in B3. apply Qeq_bool_iff in B2, B4. auto.
Qed.

Print Assumptions C74_same_run.
Print Assumptions C74_shows_model_partial.
Print Assumptions C74_pace.
Print Assumptions C74_paused.
Print Assumptions C74_video_partial.
Print Assumptions C74_video_spacing_partial.
Print Assumptions C74_synced_button_refuted.
Print Assumptions C74_single_step_refuted.
