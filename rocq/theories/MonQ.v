(** Invariants of monitors, continued: every step *)
From Coq Require Import QArith Qround Lqa List Bool Arith ZArith Lia.
From Verif Require Import Base Util Mon MonSpec MonP.
Import ListNotations.
Open Scope Q_scope.

Lemma seen_times : forall h, map (fun p => fst (fst p)) (seen h) = map fst (map fst (seen h)).
Proof. intro h. rewrite map_map. auto. Qed.
(** a tally *)
Lemma tally_inv : forall v m h x w, Minv v m h -> value_ok m x -> (m_stats m = true -> 0 <= w) ->
  exists m' r, tally x w v m = (m', r) /\ Minv v m' (match r with Mok _ => (v_now v, HTally x w) :: h | Mer _ => h end) /\ m_level m' = m_level m /\ m_type m' = m_type m /\ m_stats m' = m_stats m.
Proof.
  intros v m h x w I [FX OX] WP. destruct I as [GEN ON VAL OK NE TI ST LEV PLA STA]. unfold tally. rewrite GEN. destruct (m_stats m) eqn:SO.
  - (* stats_only *)
    destruct (m_level m) eqn:LV; cbn [andb].
    + destruct (Qeq_bool w 1) eqn:W1; cbn [negb].
      2: { eexists _, _. split; [reflexivity|]. rewrite LV, SO. split; [|auto]. constructor; rewrite ?LV, ?SO; auto; discriminate. }
      destruct (STA eq_refl) as (l & [S0 S1 SP ST1 SI SS]).
      destruct (m_on m) eqn:EO; cbn [andb].
      * destruct (Qeq_bool (v_now v - m_ttm m) 0) eqn:Z; cbn [negb].
        -- apply Qeqb_true in Z. eexists _, _. split; [reflexivity|]. cbn. rewrite LV, SO. split; [|auto]. constructor; cbn; rewrite ?LV, ?SO; auto; try discriminate; try congruence.
           ++ eexists _, _, _. split; [reflexivity|]. apply Qle_refl.
           ++ intros _. exists l. constructor; cbn; rewrite ?LV, ?EO; auto; try discriminate; try (intros; apply Qle_refl). intros _ g e. rewrite <- ON. cbn [starts]. specialize (SI LV g (v_now v)). rewrite <- SI, Z. ring.
        -- apply Qeqb_false in Z. specialize (ST1 LV). destruct (sta_add (m_a0 m) (m_a1 m) l (m_tally m) (v_now v - m_ttm m) S0 S1 SP) as (b0 & b1 & E0 & E1 & T0 & T1); [lra|].
           cbn [set_tally set_ttm m_a0 m_a1]. rewrite E0.
           assert (N : Minv v (set_acc b0 b1 (set_tally x (v_now v) (set_ttm (v_now v) m))) ((v_now v, HTally x w) :: h)).
           { constructor; cbn; rewrite ?LV, ?SO; auto; try discriminate; try congruence.
             - eexists _, _, _. split; [reflexivity|]. apply Qle_refl.
             - intros _. exists ((m_tally m, v_now v - m_ttm m) :: l). constructor; cbn [set_acc set_tally set_ttm m_a0 m_a1 m_level m_ttm m_on m_tally]; rewrite ?LV, ?EO; auto; try discriminate.
               + intros p [<-|P]; [cbn; lra|auto].
               + intros; apply Qle_refl.
               + intros _ g e. cbn [integral on_of value_of starts total_of]. rewrite <- ON. rewrite <- (SI LV g (v_now v)). ring. }
           destruct (Qeq_bool (numq (numeric (m_tally m))) 0); [subst b1|rewrite E1]; (eexists _, _; split; [reflexivity|]; cbn; rewrite LV, SO; split; [exact N|auto]).
      * eexists _, _. split; [reflexivity|]. cbn. rewrite LV, SO. split; [|auto]. constructor; cbn; rewrite ?LV, ?SO; auto; try discriminate.
        -- congruence.
        -- eexists _, _, _. split; [reflexivity|]. apply Qle_refl.
        -- intros _. exists l. constructor; cbn; rewrite ?LV, ?EO; auto; try discriminate. intros _ g e. rewrite <- ON. cbn [starts]. rewrite <- (SI LV g (v_now v)). ring.
    + destruct (STA eq_refl) as (l & [S0 S1 SP ST1 SI SS]). specialize (SS LV).
      assert (SK : forall m', (m_on m && negb (Qeq_bool w 0)) = false -> m' = m -> Minv v m' ((v_now v, HTally x w) :: h)).
      { intros m' SK ->. constructor; cbn; rewrite ?LV, ?SO; auto; try discriminate; try (eexists _, _, _; split; [reflexivity|]; apply Qle_refl).
        intros _. exists l. constructor; rewrite ?LV; auto; try discriminate. intros _. cbn [seen]. rewrite <- ON. destruct (m_on m); auto. cbn [map filter snd fst]. cbn [andb] in SK. rewrite SK. auto. }
      destruct (m_on m && negb (Qeq_bool w 0)) eqn:C.
      * apply andb_true_iff in C. destruct C as [EO WZ]. apply negb_true_iff in WZ. assert (WZ' := WZ). apply Qeqb_false in WZ. specialize (WP eq_refl).
        destruct (sta_add (m_a0 m) (m_a1 m) l x w S0 S1 SP) as (b0 & b1 & E0 & E1 & T0 & T1); [lra|]. rewrite E0.
        assert (N : Minv v (set_acc b0 b1 m) ((v_now v, HTally x w) :: h)).
        { constructor; cbn; rewrite ?LV, ?SO; auto; try discriminate; try (eexists _, _, _; split; [reflexivity|]; apply Qle_refl).
          intros _. exists ((x, w) :: l). constructor; cbn [set_acc m_a0 m_a1 m_level m_ttm m_on m_tally]; rewrite ?LV; auto; try discriminate.
          - intros p [<-|P]; [cbn; lra|auto].
          - intros _. cbn [seen]. rewrite <- ON, EO. cbn [map filter snd fst]. rewrite WZ'. cbn [negb]. f_equal. auto. }
        destruct (Qeq_bool (numq (numeric x)) 0); [subst b1|rewrite E1]; (eexists _, _; split; [reflexivity|]; cbn; rewrite LV, SO; split; [exact N|auto]).
      * eexists _, _. split; [reflexivity|]. split; [apply SK; auto|auto].
  - (* full *)
    cbn [set_cache m_level m_on m_off m_e m_w]. destruct (m_level m) eqn:LV.
    + specialize (LEV eq_refl eq_refl).
      assert (SAME : Minv v (set_cache [] m) h).
      { constructor; cbn; rewrite ?LV, ?SO; auto; try discriminate. intros _ _. destruct LEV. constructor; cbn; auto. }
      destruct (Qeq_bool w 1) eqn:W1; cbn [negb]; [|eexists _, _; split; [reflexivity|]; cbn; rewrite LV, SO; split; [exact SAME|auto]].
      change (off_of (m_type (set_cache [] m))) with (m_off m). unfold m_off at 1. cbn [set_cache m_type]. fold (m_off m). rewrite OX. cbn [set_tally m_on m_e m_type set_cache].
      destruct (m_on m) eqn:EO.
      * destruct (lv_head _ _ _ LEV) as (s & r & HD). rewrite HD. rewrite FX. eexists _, _. split; [reflexivity|]. cbn; rewrite LV, SO. split; [|auto]. constructor; cbn [set_e set_tally set_cache m_gen m_on m_level m_tally m_type m_start m_stats m_e m_w]; rewrite ?LV, ?SO; auto; try discriminate; try (eexists _, _, _; split; [reflexivity|]; apply Qle_refl).
        { cbn [on_of]. congruence. } intros _ _. eapply lev_put with (x := x); [exact LEV|..]; cbn [on_of value_of set_e set_tally set_cache m_e m_w m_type m_start m_on m_tally]; try rewrite <- ON; try rewrite EO; auto.
        rewrite HD, EO. auto.
      * eexists _, _. split; [reflexivity|]. cbn; rewrite LV, SO. split; [|auto]. constructor; cbn [set_e set_tally set_cache m_gen m_on m_level m_tally m_type m_start m_stats m_e m_w]; rewrite ?LV, ?SO; auto; try discriminate; try (eexists _, _, _; split; [reflexivity|]; apply Qle_refl).
        -- cbn [on_of]. congruence.
        -- intros _ _. eapply lev_skip; eauto.
    + specialize (PLA eq_refl eq_refl). destruct PLA as [PE PW PV]. destruct (m_on m) eqn:EO.
      * cbn [set_w m_type set_cache m_e]. rewrite FX. eexists _, _. split; [reflexivity|]. cbn; rewrite LV, SO. split; [|auto]. constructor; cbn [set_e set_w set_cache m_gen m_on m_level m_tally m_type m_start m_stats m_e m_w]; rewrite ?LV, ?SO; auto; try discriminate; try (eexists _, _, _; split; [reflexivity|]; apply Qle_refl).
        -- cbn [on_of]. congruence.
        -- intros _ _. constructor; cbn [set_e set_w set_cache m_e m_w m_type seen]; rewrite <- ON; cbn [map fst].
           ++ f_equal. auto.
           ++ rewrite PE, map_length. apply weights_add. auto.
           ++ intros t y u [Y|Y]; [injection Y as <- <- <-; auto|eauto].
      * eexists _, _. split; [reflexivity|]. cbn; rewrite LV, SO. split; [|auto]. constructor; cbn [set_e set_w set_cache m_gen m_on m_level m_tally m_type m_start m_stats m_e m_w]; rewrite ?LV, ?SO; auto; try discriminate; try (eexists _, _, _; split; [reflexivity|]; apply Qle_refl).
        -- cbn [on_of]. congruence.
        -- intros _ _. constructor; cbn [set_cache m_e m_w m_type seen]; rewrite <- ON; auto.
Qed.

(** the cache and the time of the last tally do not matter *)
Lemma minv_cache : forall v m h c, Minv v m h -> Minv v (set_cache c m) h.
Proof.
  intros v m h c [GEN ON VAL OK NE TI ST LEV PLA STA]. constructor; auto.
  - intros A B. destruct (LEV A B). constructor; auto.
  - intros A B. destruct (PLA A B). constructor; auto.
  - intros A. destruct (STA A) as (l & []). exists l. constructor; auto.
Qed.
Lemma minv_tt : forall v m h t, Minv v m h -> Minv v (set_tt t m) h.
Proof.
  intros v m h c [GEN ON VAL OK NE TI ST LEV PLA STA]. constructor; auto.
  - intros A B. destruct (LEV A B). constructor; auto.
  - intros A B. destruct (PLA A B). constructor; auto.
  - intros A. destruct (STA A) as (l & []). exists l. constructor; auto.
Qed.
(** time passes *)
Lemma minv_tick : forall v v' m h, Minv v m h -> v_now v <= v_now v' -> Minv v' m h.
Proof.
  intros v v' m h [GEN ON VAL OK NE TI ST LEV PLA STA] L. constructor; auto.
  - destruct TI as (s & e & r & -> & S). exists s, e, r. split; auto. lra.
  - intros A B. eapply lev_tick; eauto.
  - intros A. destruct (STA A) as (l & []). exists l. constructor; auto. intro X. specialize (sa_ttm X). lra.
Qed.
Lemma integral_split : forall g h a b, h <> [] -> integral g h b == (if on_of h then g (value_of h) * (b - a) else 0) + integral g h a.
Proof. intros g [|[s e] r] a b N; [congruence|]. cbn [integral]. destruct (on_of _); ring. Qed.
(** mean and std of a stats_only level monitor tally first *)
Lemma add_now_inv : forall v m h, Minv v m h -> m_level m = true -> m_stats m = true ->
  exists m', tally_add_now v m = (m', Mok tt) /\ Minv v m' h /\ m_level m' = m_level m /\ m_type m' = m_type m /\ m_stats m' = true /\ (m_on m = true -> m_ttm m' = v_now v) /\ m_on m' = m_on m.
Proof.
  intros v m h I LV SO. destruct (mi_ok _ _ _ I LV) as [F O]. unfold tally_add_now.
  destruct (tally_inv v m h (m_tally m) 1 I) as (m' & r & E & I' & L' & T' & S'); [split; auto; rewrite LV; auto|intros; lra|].
  assert (RT : r = Mok tt /\ (m_on m = true -> m_ttm m' = v_now v)).
  { clear I' L' T' S'. revert E. unfold tally. rewrite (mi_gen _ _ _ I), SO, LV. cbn [andb]. change (Qeq_bool 1 1) with true. cbn [negb]. destruct (m_on m) eqn:EO; cbn [andb].
    - destruct (Qeq_bool (v_now v - m_ttm m) 0) eqn:Z; cbn [negb]; [intro E; injection E as <- <-; auto|]. apply Qeqb_false in Z. destruct (mi_sta _ _ _ I SO) as (l & [S0 S1 SP ST1 SI SS]). specialize (ST1 LV).
      destruct (sta_add (m_a0 m) (m_a1 m) l (m_tally m) (v_now v - m_ttm m) S0 S1 SP) as (b0 & b1 & E0 & E1 & T0 & T1); [lra|]. cbn [set_tally set_ttm m_a0 m_a1]. rewrite E0. destruct (Qeq_bool (numq (numeric (m_tally m))) 0); [|rewrite E1]; intro E; injection E as <- <-; auto.
    - intro E; injection E as <- <-. split; auto. congruence. }
  destruct RT as [-> TT]. rewrite E. exists (set_tt (m_tt m) m'). split; [auto|]. cbn [set_tt m_level m_type m_stats m_ttm m_on]. assert (OO : m_on m' = m_on m) by (rewrite (mi_on _ _ _ I'), (mi_on _ _ _ I); auto).
  split; [|rewrite SO in S'; auto 10]. apply minv_tt. assert (VV := mi_val _ _ _ I LV).
  destruct I' as [GEN ON VAL OK NE TI ST LEV PLA STA]. constructor; auto.
  - intro A. rewrite (VAL A). cbn [value_of]. auto.
  - apply (mi_ne _ _ _ I).
  - apply (mi_time _ _ _ I).
  - intro A. congruence.
  - intro A. congruence.
  - intro A. destruct (STA A) as (l & [S0 S1 SP ST1 SI SS]). exists l. constructor; auto.
    + intros B g e. rewrite (SI B g e). rewrite (integral_split g h (v_now v) e (mi_ne _ _ _ I)). cbn [integral starts on_of value_of]. rewrite VV. reflexivity.
    + intro. congruence.
Qed.
(** switching *)
Lemma monitor_inv : forall v m h b, Minv v m h -> exists m', monitor (Some b) v m = (m', Mok tt) /\ Minv v m' ((v_now v, HSwitch b) :: h) /\ m_level m' = m_level m /\ m_type m' = m_type m /\ m_stats m' = m_stats m.
Proof.
  intros v m h b I. unfold monitor. destruct (m_stats m) eqn:SO.
  - assert (X : exists m1, (if m_on m && m_level m then tally_add_now v m else (m, Mok tt)) = (m1, Mok tt) /\ Minv v m1 h /\ m_level m1 = m_level m /\ m_type m1 = m_type m /\ m_stats m1 = true /\ (m_on m = true -> m_level m = true -> m_ttm m1 = v_now v) /\ m_on m1 = m_on m).
    { destruct (m_on m) eqn:EO, (m_level m) eqn:LV; cbn [andb]; try (exists m; do 6 (split; [solve [auto|congruence]|]); solve [auto|congruence]).
      destruct (add_now_inv v m h I LV SO) as (m1 & E & I1 & L & T & S & TT & OO). exists m1. rewrite LV in L. do 6 (split; [solve [auto|congruence]|]); solve [auto|congruence]. }
    destruct X as (m1 & -> & I1 & L & T & S1 & TT & OO). eexists. split; [reflexivity|]. cbn [set_on set_ttm m_level m_type m_stats]. split; [|auto].
    destruct I1 as [GEN ON VAL OK NE TI ST LEV PLA STA]. constructor; cbn [set_on set_ttm m_level m_type m_stats m_gen m_on m_tally m_start value_of on_of start_of starts]; auto; try discriminate; try congruence.
    + eexists _, _, _. split; [reflexivity|]. apply Qle_refl.
    + intros _. destruct (STA S1) as (l & [S0 SS1 SP ST1 SI SS]). exists l. constructor; cbn [set_on set_ttm m_level m_type m_stats m_gen m_on m_tally m_start m_ttm m_a0 m_a1]; auto.
      * intros; apply Qle_refl.
      * intros A g e. cbn [integral on_of value_of starts]. rewrite <- (SI A g (v_now v)), (VAL A). rewrite OO. destruct (m_on m); [rewrite TT by congruence|]; destruct b; ring.
  - destruct I as [GEN ON VAL OK NE TI ST LEV PLA STA]. rewrite GEN, andb_false_r. cbn [set_on m_level]. destruct (m_level m) eqn:LV.
    + specialize (LEV SO eq_refl). destruct (lv_head _ _ _ LEV) as (s & r & HD). destruct (OK eq_refl) as [F O].
      destruct b.
      * unfold tally. cbn [set_on set_cache m_gen m_stats m_level m_on m_e m_type m_tally]. rewrite GEN, SO, LV. change (negb (Qeq_bool 1 1)) with false. cbn iota. change (m_off (set_cache [] (set_on true m))) with (m_off m). rewrite O. cbn [set_tally set_on set_cache m_gen m_stats m_level m_on m_e m_type m_tally]. rewrite HD, F. rewrite <- HD.
        eexists. split; [reflexivity|]. cbn [set_e set_tally set_on set_cache m_level m_type m_stats]. split; [|auto].
        constructor; cbn [set_e set_tally set_on set_cache m_level m_type m_stats m_gen m_on m_tally m_start value_of on_of start_of starts]; auto; try congruence.
        -- eexists _, _, _. split; [reflexivity|]. apply Qle_refl.
        -- intros _ _. eapply lev_put with (x := m_tally m); [exact LEV|..]; cbn [set_e set_tally set_on set_cache on_of value_of starts m_e m_w m_type m_start m_on m_tally]; auto.
      * unfold tally_off. cbn [set_on m_gen m_e]. rewrite GEN, HD, <- HD. eexists. split; [reflexivity|]. cbn [set_e set_on m_level m_type m_stats]. split; [|auto].
        constructor; cbn [set_e set_tally set_on set_cache m_level m_type m_stats m_gen m_on m_tally m_start value_of on_of start_of starts]; auto; try congruence.
        -- eexists _, _, _. split; [reflexivity|]. apply Qle_refl.
        -- intros _ _. eapply lev_put with (x := m_off m); [exact LEV|..]; cbn [set_e set_tally set_on set_cache on_of value_of starts m_e m_w m_type m_start m_on m_tally]; auto. congruence.
    + eexists. split; [reflexivity|]. cbn [set_on m_level m_type m_stats]. split; [|auto].
      constructor; cbn [set_on m_level m_type m_stats m_gen m_on m_tally m_start value_of on_of start_of starts]; auto; try congruence.
      * eexists _, _, _. split; [reflexivity|]. apply Qle_refl.
      * intros _ _. destruct (PLA SO eq_refl). constructor; auto.
Qed.
(** a start: from any monitor of which the present value is known *)
Lemma start_inv : forall v m h e mo so, m_gen m = false -> starts e = true -> (m_level m = true -> m_tally m = value_of ((v_now v, e) :: h)) -> (m_level m = true -> fits (m_type m) (m_tally m) = true /\ veqb (m_tally m) (m_off m) = false) ->
  (match mo with Some b => b | None => m_on m end) = on_of ((v_now v, e) :: h) -> seen ((v_now v, e) :: h) = [] ->
  exists m', reset mo so v m = (m', Mok tt) /\ Minv v m' ((v_now v, e) :: h) /\ m_level m' = m_level m /\ m_type m' = m_type m /\ m_stats m' = match so with Some b => b | None => m_stats m end.
Proof.
  intros v m h e mo so GEN S VAL OK ON SEEN. unfold reset. rewrite GEN.
  set (m1 := match mo with Some b => set_on b m | None => m end). set (m2 := match so with Some b => set_stats b m1 | None => m1 end).
  set (m3 := set_start (v_now v) m2).
  assert (F2 : m_gen m3 = false /\ m_level m3 = m_level m /\ m_type m3 = m_type m /\ m_tally m3 = m_tally m /\ m_on m3 = on_of ((v_now v, e) :: h) /\ m_stats m3 = (match so with Some b => b | None => m_stats m end) /\ m_start m3 = v_now v).
  { unfold m3, m2, m1. destruct mo, so; cbn [set_on set_stats set_start m_gen m_level m_type m_tally m_on m_stats m_start]; auto 10. }
  destruct F2 as (G3 & L3 & T3 & V3 & O3 & S3 & ST3). clearbody m3. clear m1 m2.
  set (m4 := if m_stats m3 then _ else _).
  assert (F4 : Minv v m4 ((v_now v, e) :: h) /\ m_level m4 = m_level m3 /\ m_type m4 = m_type m3 /\ m_stats m4 = m_stats m3).
  { unfold m4. assert (OFF : m_off m3 = m_off m) by (unfold m_off; congruence). rewrite <- L3 in VAL, OK. rewrite <- T3, <- V3, <- OFF in OK. rewrite <- V3 in VAL.
    destruct (m_stats m3) eqn:SO.
    - destruct (m_level m3) eqn:LV; cbn [set_w set_acc set_ttm m_level m_type m_stats]; (split; [|auto]); (constructor; cbn [set_w set_acc set_ttm m_level m_type m_stats m_gen m_on m_tally m_start value_of on_of start_of starts]; auto; try congruence; try (cbn [start_of]; rewrite S; auto); try (eexists _, _, _; split; [reflexivity|]; apply Qle_refl)).
      + intros _. exists []. constructor; cbn [set_w set_acc set_ttm m_level m_ttm m_a0 m_a1 m_on m_tally map filter]; auto using stat0; try congruence.
        * intros p [].
        * intros; apply Qle_refl.
        * intros _ g u. cbn [integral total_of]. rewrite S, <- O3, <- (VAL eq_refl). destruct (m_on m3); ring.
      + intros _. exists []. constructor; cbn [set_w set_acc set_ttm m_level m_ttm m_a0 m_a1 m_on m_tally map filter]; auto using stat0; try congruence.
        * intros p [].
        * intros _. rewrite SEEN. auto.
    - destruct (m_level m3) eqn:LV; cbn [set_w set_e m_level m_type m_stats]; (split; [|auto]); (constructor; cbn [set_w set_e m_level m_type m_stats m_gen m_on m_tally m_start value_of on_of start_of starts]; auto; try congruence; try (cbn [start_of]; rewrite S; auto); try (eexists _, _, _; split; [reflexivity|]; apply Qle_refl)).
      + intros _ _. eapply lev_start; cbn [set_w set_e m_w m_e m_on m_tally m_type m_start]; auto.
      + intros _ _. constructor; cbn [set_w set_e m_w m_e m_on m_tally m_type m_start]; rewrite SEEN; cbn; auto; intros ? ? ? []. }
  clearbody m4. destruct F4 as (I4 & L4 & T4 & S4). apply minv_cache with (c := []) in I4.
  destruct mo as [b|].
  - destruct (monitor_inv _ _ _ b I4) as (m' & E & I' & L' & T' & S'). exists m'. split; auto. cbn [set_cache m_level m_type m_stats] in *. split; [|split; [congruence|split; congruence]].
    clear E. destruct I' as [GEN' ON' VAL' OK' NE' TI' ST' LEV' PLA' STA']. constructor; auto.
    + cbn [on_of] in ON'. congruence.
    + discriminate.
    + eexists _, _, _. split; [reflexivity|]. apply Qle_refl.
    + intros A B. destruct (LEV' A B) as [W D HD LO IN STT VA]. constructor; auto.
      * intro t. rewrite LO. cbn [level_at]. cbn [starts]. rewrite S. destruct (Qle_bool (v_now v) t); auto. cbn [on_of value_of]. rewrite ON. auto.
      * intros g u. rewrite IN. cbn [integral starts]. rewrite S. change (on_of ((v_now v, HSwitch b) :: (v_now v, e) :: h)) with b. rewrite <- ON. change (value_of ((v_now v, HSwitch b) :: (v_now v, e) :: h)) with (value_of ((v_now v, e) :: h)). destruct b; ring.
    + intros A B. destruct (PLA' A B) as [P1 P2 P3]. constructor; auto.
    + intros A. destruct (STA' A) as (l & [S0 S1 SP ST1 SI SS]). exists l. constructor; auto.
      intros B g u. rewrite (SI B g u). cbn [integral starts]. rewrite S. change (on_of ((v_now v, HSwitch b) :: (v_now v, e) :: h)) with b. rewrite <- ON. change (value_of ((v_now v, HSwitch b) :: (v_now v, e) :: h)) with (value_of ((v_now v, e) :: h)). destruct b; ring.
  - eexists. split; [reflexivity|]. cbn [monitor set_cache m_level m_type m_stats]. split; [exact I4|]. split; [congruence|split; congruence].
Qed.
(** the main invariant *)
Theorem traced_inv : forall v m h, traced v m h -> Minv v m h.
Proof.
  intros v m h T. induction T as [level ty stats on init v m E OK|v m h o v' m' T IH OK E|v m h o v' m' e T IH OK E].
  - unfold create in E. edestruct start_inv with (v := v) (h := @nil (Q * happening)) (e := HMade (if level then init else Num 0) on) (mo := Some on) (so := @None bool) (m := mkMon level ty stats false on (if level then init else Num 0) (v_now v) (v_now v) [] WNo (v_now v) acc0 acc0 []) as (m' & E' & I & _); auto.
    + cbn [m_level m_type m_tally]. intro L. destruct OK as [A B]. cbn [m_level m_type] in *. rewrite L in *. auto.
    + congruence.
  - destruct o; cbn [mexec note_op] in *.
    + destruct OK as [A B]. destruct (tally_inv v m h x w IH A B) as (m1 & r & E1 & I1 & _). rewrite E1 in E. injection E as <- <- ->. auto.
    + destruct (monitor_inv v m h b IH) as (m1 & E1 & I1 & _). rewrite E1 in E. injection E as <- <-. auto.
    + edestruct start_inv with (v := v) (m := m) (h := h) (e := HReset mo) (mo := mo) (so := so) as (m1 & E1 & I1 & _); auto.
      * apply (mi_gen _ _ _ IH).
      * apply (mi_val _ _ _ IH).
      * apply (mi_ok _ _ _ IH).
      * cbn [on_of]. destruct mo; auto. apply (mi_on _ _ _ IH).
      * rewrite E1 in E. injection E as <- <-. auto.
    + injection E as <- <-. eapply minv_tick; eauto. cbn [v_now]. cbn [op_ok] in OK. lra.
    + injection E as <- <-. eapply minv_tick; eauto. apply Qle_refl.
    + destruct (m_stats m); injection E as <- <-; auto. unfold xweight. destruct (cget (ex0, force) (m_cache m)) as [[t r]|]; [destruct (Qeq_bool t (v_now v))|]; cbn [fst]; auto using minv_cache.
    + destruct (m_stats m) eqn:SO, (m_level m) eqn:LV; cbn [andb] in E; try (injection E as <- <-; auto; fail). destruct (add_now_inv v m h IH LV SO) as (m1 & E1 & I1 & _). rewrite E1 in E. injection E as <- <-. auto.
  - destruct o; cbn [mexec note_op] in *.
    + destruct OK as [A B]. destruct (tally_inv v m h x w IH A B) as (m1 & r & E1 & I1 & _). rewrite E1 in E. injection E as <- <- ->. auto.
    + destruct (monitor_inv v m h b IH) as (m1 & E1 & I1 & _). rewrite E1 in E. discriminate.
    + edestruct start_inv with (v := v) (m := m) (h := h) (e := HReset mo) (mo := mo) (so := so) as (m1 & E1 & I1 & _); auto.
      * apply (mi_gen _ _ _ IH).
      * apply (mi_val _ _ _ IH).
      * apply (mi_ok _ _ _ IH).
      * cbn [on_of]. destruct mo; auto. apply (mi_on _ _ _ IH).
      * rewrite E1 in E. discriminate.
    + discriminate.
    + discriminate.
    + destruct (m_stats m); discriminate.
    + destruct (m_stats m) eqn:SO, (m_level m) eqn:LV; cbn [andb] in E; try discriminate. destruct (add_now_inv v m h IH LV SO) as (m1 & E1 & I1 & _). rewrite E1 in E. discriminate.
Qed.
