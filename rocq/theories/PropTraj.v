(** C64: the movement along a trajectory. Specification: the speed that is driven at each moment (as fast as the maximum speed, the acceleration from the initial speed and the deceleration towards the final
    speed allow), and that the distance is the integral of that speed. *)
From Coq Require Import Reals Lra Psatz List.
Import ListNotations.
From Verif Require Import Traj TrajP.
Open Scope R_scope.

(** ** specification *)
(** at most [cap], and if an acceleration is given also at most what is reached from speed [v] in a period [t] *)
Definition ramp (v : R) (a : option R) (t cap : R) : R := match a with None => cap | Some a => Rmin cap (v + a * t) end.
(** the speed at time t of a movement that ends at time T *)
Definition speed (vmax v0 v1 : R) (acc dec : option R) (T t : R) : R := ramp v1 dec (T - t) (ramp v0 acc t vmax).
(** l is the integral of v on [0, T]: over each interval the distance lies between the lowest and the highest speed times the duration *)
Definition integral_of (v l : R -> R) (T : R) : Prop :=
  forall t1 t2 lo hi, 0 <= t1 -> t1 <= t2 -> t2 <= T -> (forall t, t1 <= t <= t2 -> lo <= v t <= hi) -> lo * (t2 - t1) <= l t2 - l t1 <= hi * (t2 - t1).

(** ** lemmas *)
Definition between (v l : R -> R) (t1 t2 : R) : Prop := forall lo hi, (forall t, t1 <= t <= t2 -> lo <= v t <= hi) -> lo * (t2 - t1) <= l t2 - l t1 <= hi * (t2 - t1).
Lemma between_trans v l a b c : a <= b -> b <= c -> between v l a b -> between v l b c -> between v l a c.
Proof.
  intros Hab Hbc P1 P2 lo hi Hv. destruct (P1 lo hi) as [A1 A2]. { intros; apply Hv; lra. } destruct (P2 lo hi) as [B1 B2]. { intros; apply Hv; lra. } lra.
Qed.
(** a distance that is the mean of the speeds at the ends times the duration *)
Lemma between_trap v l a b : a <= b -> l b - l a = (v a + v b) / 2 * (b - a) -> between v l a b.
Proof. intros Hab E lo hi Hv. rewrite E. pose proof (Hv a) as A. pose proof (Hv b) as B. destruct A; [lra|]. destruct B; [lra|]. split; apply Rmult_le_compat_r; lra. Qed.
Lemma between_same v l a b : a = b -> between v l a b.
Proof. intros <- lo hi _. lra. Qed.

Lemma opt_case (o : option R) : (exists a, o = Some a) \/ o = None.
Proof. destruct o; eauto. Qed.

Section Movement.
Variables (L vm v0 v1 : R) (acc dec : option R) (m : movement).
Hypothesis Hm : made L vm v0 v1 acc dec m.
Hypothesis Ha : match acc with None => True | Some a => 0 < a end.
Hypothesis Hd : match dec with None => True | Some d => 0 < d end.
Hypothesis H0 : 0 <= v0.
Hypothesis H1 : 0 <= v1.
Let v := speed vm v0 v1 acc dec (mv_t m).
Let T_eq := md_t _ _ _ _ _ _ _ Hm.

Lemma Wle : mv_vmax m <= vm. Proof. exact (proj2 (md_pos _ _ _ _ _ _ _ Hm)). Qed.
(** the deceleration ramp is above the speed W before it starts *)
Lemma ramp_down t : t <= mv_t0 m + mv_tv m -> match dec with None => True | Some d => mv_vmax m <= v1 + d * (mv_t m - t) end.
Proof.
  intros Ht. pose proof (down_end _ _ _ _ _ _ _ Hm Hd) as D. destruct dec as [d|]; auto. specialize (D _ eq_refl). rewrite D at 1.
  assert (d * mv_t1 m <= d * (mv_t m - t)) by (apply Rmult_le_compat_l; lra). lra.
Qed.
Lemma ramp_up t : mv_t0 m <= t -> match acc with None => True | Some a => mv_vmax m <= v0 + a * t end.
Proof.
  intros Ht. pose proof (up_end _ _ _ _ _ _ _ Hm Ha) as D. destruct acc as [a|]; auto. specialize (D _ eq_refl). rewrite D at 1.
  assert (a * mv_t0 m <= a * t) by (apply Rmult_le_compat_l; lra). lra.
Qed.
Lemma speed_up a t : acc = Some a -> 0 <= t <= mv_t0 m -> v t = v0 + a * t.
Proof.
  intros E Ht. pose proof Wle as WL. pose proof (up_end _ _ _ _ _ _ _ Hm Ha) as U. pose proof (tv_nn _ _ _ _ _ _ _ Hm). pose proof (ramp_down t ltac:(lra)) as D. unfold v, speed, ramp. subst acc. specialize (U _ eq_refl).
  assert (a * t <= a * mv_t0 m) by (apply Rmult_le_compat_l; lra).
  rewrite (Rmin_right vm) by lra. destruct dec; auto. apply Rmin_left. lra.
Qed.
Lemma speed_full t : mv_t0 m <= t <= mv_t0 m + mv_tv m -> 0 < mv_tv m -> v t = mv_vmax m.
Proof.
  intros Ht Hp. pose proof (tv_full _ _ _ _ _ _ _ Hm Hp) as F. pose proof (ramp_down t ltac:(lra)) as D. pose proof (ramp_up t ltac:(lra)) as U. unfold v, speed, ramp.
  destruct acc; [rewrite (Rmin_left vm) by lra|]; destruct dec; try lra; rewrite Rmin_left; lra.
Qed.
Lemma speed_down d t : dec = Some d -> mv_t0 m + mv_tv m <= t <= mv_t m -> v t = v1 + d * (mv_t m - t).
Proof.
  intros E Ht. pose proof Wle as WL. pose proof (down_end _ _ _ _ _ _ _ Hm Hd) as U. pose proof (tv_nn _ _ _ _ _ _ _ Hm). pose proof (ramp_up t ltac:(lra)) as D. unfold v, speed, ramp. subst dec. specialize (U _ eq_refl).
  assert (d * (mv_t m - t) <= d * mv_t1 m) by (apply Rmult_le_compat_l; lra).
  apply Rmin_right. destruct acc; [|lra]. apply Rmin_glb; lra.
Qed.

Lemma between_up t1 t2 : 0 <= t1 -> t1 <= t2 -> t2 <= mv_t0 m -> between v (l_at_t m) t1 t2.
Proof.
  intros A B C. destruct (opt_case acc) as [[a E]|E].
  - apply between_trap; auto. rewrite !(pos_up _ _ _ _ _ _ _ Hm Ha Hd) by lra. rewrite !(speed_up a) by (auto; lra). rewrite E. cbn [dflt]. field.
  - apply between_same. destruct (up_none _ _ _ _ _ _ _ Hm Ha E). lra.
Qed.
Lemma between_full t1 t2 : mv_t0 m <= t1 -> t1 <= t2 -> t2 <= mv_t0 m + mv_tv m -> between v (l_at_t m) t1 t2.
Proof.
  intros A B C. destruct (Rlt_dec 0 (mv_tv m)).
  - apply between_trap; auto. rewrite !(pos_full _ _ _ _ _ _ _ Hm Ha Hd) by lra. rewrite !speed_full by (auto; lra). field.
  - apply between_same. lra.
Qed.
Lemma between_down t1 t2 : mv_t0 m + mv_tv m <= t1 -> t1 <= t2 -> t2 <= mv_t m -> between v (l_at_t m) t1 t2.
Proof.
  intros A B C. destruct (opt_case dec) as [[d E]|E].
  - apply between_trap; auto. rewrite !(pos_down _ _ _ _ _ _ _ Hm Ha Hd) by lra. rewrite !(speed_down d) by (auto; lra). rewrite (down_end _ _ _ _ _ _ _ Hm Hd _ E), E. cbn [dflt].
    rewrite T_eq. field.
  - apply between_same. destruct (down_none _ _ _ _ _ _ _ Hm Hd E). lra.
Qed.
Lemma between_all t1 t2 : 0 <= t1 -> t1 <= t2 -> t2 <= mv_t m -> between v (l_at_t m) t1 t2.
Proof.
  intros A B C. pose proof (tv_nn _ _ _ _ _ _ _ Hm) as TN.
  assert (K : forall t, mv_t0 m <= t1 -> t1 <= t -> t <= mv_t m -> between v (l_at_t m) t1 t).
  { intros t K1 K2 K3. destruct (Rle_dec t (mv_t0 m + mv_tv m)); [apply between_full; lra|]. destruct (Rle_dec t1 (mv_t0 m + mv_tv m)); [|apply between_down; lra].
    apply between_trans with (b := mv_t0 m + mv_tv m); try lra; [apply between_full|apply between_down]; lra. }
  destruct (Rle_dec t2 (mv_t0 m)); [apply between_up; lra|]. destruct (Rle_dec (mv_t0 m) t1); [apply K; lra|].
  apply between_trans with (b := mv_t0 m); try lra; [apply between_up; lra|]. destruct (Rle_dec t2 (mv_t0 m + mv_tv m)); [apply between_full; lra|].
  apply between_trans with (b := mv_t0 m + mv_tv m); try lra; [apply between_full|apply between_down]; lra.
Qed.
End Movement.

Ltac take m Hs Hn := pose proof (new_made _ _ _ _ _ _ m Hs Hn) as Hm; destruct Hs as (Hvm & H0 & H1 & Ha & Hd).

(** ** C64 *)
(** the movement covers the length of the trajectory, from 0 at time 0 to the whole length at the end, and stands still before and after *)
Theorem C64_covers : forall L vmax v0 v1 acc dec m, sensible vmax v0 v1 acc dec -> new_movement L vmax v0 v1 acc dec = TOk m ->
  0 <= mv_t m /\ (forall t, t <= 0 -> l_at_t m t = 0) /\ (forall t, mv_t m <= t -> l_at_t m t = L).
Proof.
  intros L vmax v0 v1 acc dec m Hs Hn. take m Hs Hn. pose proof (T_nn _ _ _ _ _ _ _ Hm Ha Hd) as TN. repeat split; auto; intros t Ht; rewrite (pos_clamp _ _ _ _ _ _ _ Hm Ha Hd t).
  - rewrite Rmin_left by lra. rewrite Rmax_left by lra. apply (pos_start _ _ _ _ _ _ _ Hm Ha Hd).
  - rewrite Rmin_right by lra. rewrite Rmax_right by lra. apply (pos_end _ _ _ _ _ _ _ Hm Ha Hd).
Qed.
(** the distance is the integral of the speed *)
Theorem C64_speed : forall L vmax v0 v1 acc dec m, sensible vmax v0 v1 acc dec -> new_movement L vmax v0 v1 acc dec = TOk m ->
  integral_of (speed (dflt 1 vmax) (dflt (dflt 1 vmax) v0) (dflt (dflt 1 vmax) v1) acc dec (mv_t m)) (l_at_t m) (mv_t m).
Proof. intros L vmax v0 v1 acc dec m Hs Hn t1 t2 lo hi A B C. take m Hs Hn. apply (between_all _ _ _ _ _ _ _ Hm Ha Hd); auto. Qed.
(** that speed is never negative and never above the given maximum; it is v0 at the start and v1 at the end (unless the acceleration there is infinite) *)
Theorem C64_speed_bounds : forall L vmax v0 v1 acc dec m, sensible vmax v0 v1 acc dec -> new_movement L vmax v0 v1 acc dec = TOk m ->
  let v := speed (dflt 1 vmax) (dflt (dflt 1 vmax) v0) (dflt (dflt 1 vmax) v1) acc dec (mv_t m) in
  (forall t, 0 <= t <= mv_t m -> 0 <= v t <= dflt 1 vmax) /\
  (acc <> None -> v 0 = dflt (dflt 1 vmax) v0) /\ (dec <> None -> v (mv_t m) = dflt (dflt 1 vmax) v1).
Proof.
  intros L vmax v0 v1 acc dec m Hs Hn. take m Hs Hn. cbn zeta. set (vm := dflt 1 vmax) in *. set (a := dflt vm v0) in *. set (b := dflt vm v1) in *. clearbody vm a b. repeat split.
  - unfold speed, ramp. assert (0 <= match acc with Some c => Rmin vm (a + c * t) | None => vm end).
    { destruct acc as [c|]; [|lra]. apply Rmin_glb; [lra|]. assert (0 <= c * t) by (apply Rmult_le_pos; lra). lra. }
    destruct dec as [d|]; auto. apply Rmin_glb; auto. assert (0 <= d * (mv_t m - t)) by (apply Rmult_le_pos; lra). lra.
  - unfold speed, ramp. assert (match acc with Some c => Rmin vm (a + c * t) | None => vm end <= vm) by (destruct acc; [apply Rmin_l|lra]).
    destruct dec as [d|]; auto. eapply Rle_trans; [apply Rmin_l|auto].
  - intros Hne. destruct (opt_case acc) as [[c E]|E]; [|congruence]. rewrite (speed_up _ _ _ _ _ _ _ Hm Ha Hd c 0); auto; [lra|]. pose proof (t0_nn _ _ _ _ _ _ _ Hm Ha). lra.
  - intros Hne. destruct (opt_case dec) as [[c E]|E]; [|congruence]. rewrite (speed_down _ _ _ _ _ _ _ Hm Ha Hd c); auto; [lra|].
    pose proof (md_t _ _ _ _ _ _ _ Hm). pose proof (t1_nn _ _ _ _ _ _ _ Hm Hd). lra.
Qed.
(** never backwards and never faster than the given maximum *)
Theorem C64_monotone : forall L vmax v0 v1 acc dec m t1 t2, sensible vmax v0 v1 acc dec -> new_movement L vmax v0 v1 acc dec = TOk m -> t1 <= t2 ->
  0 <= l_at_t m t2 - l_at_t m t1 <= dflt 1 vmax * (t2 - t1).
Proof.
  intros L vmax v0 v1 acc dec m t1 t2 Hs Hn Ht. destruct (C64_speed_bounds _ _ _ _ _ _ _ Hs Hn) as (B & _). pose proof (C64_speed _ _ _ _ _ _ _ Hs Hn) as I. pose proof Hs as Hs'. take m Hs' Hn.
  pose proof (T_nn _ _ _ _ _ _ _ Hm Ha Hd) as TN. rewrite (pos_clamp _ _ _ _ _ _ _ Hm Ha Hd t1), (pos_clamp _ _ _ _ _ _ _ Hm Ha Hd t2).
  set (u1 := Rmax 0 (Rmin t1 (mv_t m))). set (u2 := Rmax 0 (Rmin t2 (mv_t m))).
  assert (U : 0 <= u1 /\ u1 <= u2 /\ u2 <= mv_t m /\ u2 - u1 <= t2 - t1). { unfold u1, u2, Rmax, Rmin. repeat destruct (Rle_dec _ _); lra. }
  destruct U as (U1 & U2 & U3 & U4). destruct (I u1 u2 0 (dflt 1 vmax) U1 U2 U3) as [I1 I2]. { intros t Hu. apply B. lra. }
  split; [lra|]. eapply Rle_trans; [apply I2|]. apply Rmult_le_compat_l; lra.
Qed.

(** which movements are possible: the final speed must be reachable from the initial speed within the length, and the other way round *)
Definition possible (L v0 v1 : R) (acc dec : option R) : Prop :=
  match acc with None => True | Some a => v1 * v1 <= v0 * v0 + 2 * a * L end /\ match dec with None => True | Some d => v0 * v0 <= v1 * v1 + 2 * d * L end.
(** a possible movement with different speeds at its ends: never "not feasible". (A ramp that has infinite acceleration on one side is always possible from that side.) *)
Lemma half_mul k x y z : 0 < k -> x <= y + 2 * k * z -> (x - y) * inv2 (Some k) <= z.
Proof. intros Hk H. cbn. unfold Rdiv. rewrite Rmult_1_l. apply (Rmult_le_reg_r (2 * k)); [lra|]. rewrite Rmult_assoc, Rinv_l by lra. lra. Qed.
Lemma half_mul' k x y z : 0 < k -> (x - y) * inv2 (Some k) <= z -> x <= y + 2 * k * z.
Proof. intros Hk H. cbn in H. unfold Rdiv in H. rewrite Rmult_1_l in H. apply (Rmult_le_compat_r (2 * k)) in H; [|lra]. rewrite Rmult_assoc, Rinv_l in H by lra. lra. Qed.

Theorem C64_possible : forall L vmax v0 v1 acc dec, sensible vmax v0 v1 acc dec -> 0 < L ->
  (acc <> None -> dflt (dflt 1 vmax) v0 <= dflt 1 vmax) -> (dec <> None -> dflt (dflt 1 vmax) v1 <= dflt 1 vmax) ->
  possible L (dflt (dflt 1 vmax) v0) (dflt (dflt 1 vmax) v1) acc dec -> exists m, new_movement L vmax v0 v1 acc dec = TOk m.
Proof.
  intros L vmax v0 v1 acc dec (Hvm & H0 & H1 & Ha & Hd) HL Hv0 Hv1 [P1 P2]. unfold new_movement. rewrite (is0_pos _ Ha), (is0_pos _ Hd). cbn [orb].
  set (vm := dflt 1 vmax) in *. set (a := dflt vm v0) in *. set (b := dflt vm v1) in *. clearbody vm a b. clear vmax v0 v1.
  pose proof (inv2_nn _ Ha) as Ia. pose proof (inv2_nn _ Hd) as Id.
  destruct (Rlt_dec L _) as [Hs|Hs].
  - assert (Hk : 0 < inv2 acc + inv2 dec).
    { destruct acc as [x|]; [pose proof (inv2_pos x Ha); lra|]. destruct dec as [y|]; [pose proof (inv2_pos y Hd); lra|]. cbn in Hs. lra. }
    destruct (Req_EM_T (inv2 acc + inv2 dec) 0) as [|nz]; [lra|].
    set (sq := (L + a * a * inv2 acc + b * b * inv2 dec) / (inv2 acc + inv2 dec)) in *.
    assert (Ea : 0 <= a * a * inv2 acc) by (apply Rmult_le_pos; auto; nra). assert (Eb : 0 <= b * b * inv2 dec) by (apply Rmult_le_pos; auto; nra).
    assert (Hsq : 0 < sq) by (unfold sq; apply Rdiv_lt_0_compat; lra).
    destruct (Rlt_dec sq 0) as [|nn]; [lra|].
    assert (Hss : sqrt sq * sqrt sq = sq) by (apply sqrt_sqrt; lra).
    assert (Hm : sq * (inv2 acc + inv2 dec) = L + a * a * inv2 acc + b * b * inv2 dec) by (unfold sq; field; lra).
    assert (G1 : 0 <= (sq - a * a) * inv2 acc).
    { apply Rmult_le_pos; auto. assert (K : (a * a - b * b) * inv2 dec <= L). { destruct dec as [y|]; [apply half_mul; auto|cbn; lra]. }
      assert (0 <= (sq - a * a) * (inv2 acc + inv2 dec)) by lra. apply (prod_nn _ _ Hk); auto. }
    assert (G2 : 0 <= (sq - b * b) * inv2 dec).
    { apply Rmult_le_pos; auto. assert (K : (b * b - a * a) * inv2 acc <= L). { destruct acc as [y|]; [apply half_mul; auto|cbn; lra]. }
      assert (0 <= (sq - b * b) * (inv2 acc + inv2 dec)) by lra. apply (prod_nn _ _ Hk); auto. }
    rewrite Hss. destruct (Rlt_dec _ 0); [lra|]. destruct (Rlt_dec _ 0); [lra|]. destruct (Req_EM_T (sqrt sq) 0) as [E|]; [|eauto]. rewrite E in Hss. lra.
  - assert (G1 : 0 <= (vm * vm - a * a) * inv2 acc). { destruct acc; [|cbn; lra]. apply Rmult_le_pos; auto. assert (a <= vm) by (apply Hv0; discriminate). nra. }
    assert (G2 : 0 <= (vm * vm - b * b) * inv2 dec). { destruct dec; [|cbn; lra]. apply Rmult_le_pos; auto. assert (b <= vm) by (apply Hv1; discriminate). nra. }
    destruct (Rlt_dec _ 0); [lra|]. destruct (Rlt_dec _ 0); [lra|]. destruct (Req_EM_T vm 0); [lra|]. eauto.
Qed.
(** and a movement that is made is possible *)
Theorem C64_made_possible : forall L vmax v0 v1 acc dec m, sensible vmax v0 v1 acc dec -> new_movement L vmax v0 v1 acc dec = TOk m ->
  0 <= L /\ (acc <> None -> dec <> None -> possible L (dflt (dflt 1 vmax) v0) (dflt (dflt 1 vmax) v1) acc dec).
Proof.
  intros L vmax v0 v1 acc dec m Hs Hn. take m Hs Hn. set (vm := dflt 1 vmax) in *. set (a := dflt vm v0) in *. set (b := dflt vm v1) in *. clearbody vm a b.
  pose proof (md_sum _ _ _ _ _ _ _ Hm) as ES. pose proof (md_l _ _ _ _ _ _ _ Hm) as EL. pose proof (md_l0 _ _ _ _ _ _ _ Hm) as E0. pose proof (md_l1 _ _ _ _ _ _ _ Hm) as E1. pose proof (md_up _ _ _ _ _ _ _ Hm) as U. pose proof (md_down _ _ _ _ _ _ _ Hm) as D.
  pose proof (inv2_nn _ Ha) as Ia. pose proof (inv2_nn _ Hd) as Id. set (W := mv_vmax m) in *.
  assert (P0 : 0 <= mv_l0 m). { rewrite E0. destruct acc; [|cbn; lra]. apply Rmult_le_pos; auto. nra. }
  assert (P1 : 0 <= mv_l1 m). { rewrite E1. destruct dec; [|cbn; lra]. apply Rmult_le_pos; auto. nra. }
  split; [lra|]. intros Na Nd. destruct acc as [x|]; [|congruence]. destruct dec as [y|]; [|congruence]. split.
  - assert (W * W <= a * a + 2 * x * L) by (apply half_mul'; auto; lra). nra.
  - assert (W * W <= b * b + 2 * y * L) by (apply half_mul'; auto; lra). nra.
Qed.
(** refuted: the movement of length 0 from rest to rest is possible (it takes no time), but raises ZeroDivisionError, e.g. for a polygon whose points are equal *)
Theorem C64_zero_length_refuted : ~ (forall L vmax v0 v1 acc dec, sensible vmax v0 v1 acc dec -> 0 <= L -> dflt (dflt 1 vmax) v0 <= dflt 1 vmax -> dflt (dflt 1 vmax) v1 <= dflt 1 vmax ->
  possible L (dflt (dflt 1 vmax) v0) (dflt (dflt 1 vmax) v1) acc dec -> exists m, new_movement L vmax v0 v1 acc dec = TOk m).
Proof.
  intros H. destruct (H 0 None (Some 0) (Some 0) (Some 1) (Some 1)) as [m Hn]; cbn; try lra. { repeat split; cbn; lra. } { repeat split; cbn; lra. }
  unfold new_movement, is0, dflt, inv2 in Hn. destruct (Req_EM_T 1 0); [lra|]. cbn [orb] in Hn.
  destruct (Rlt_dec 0 _) as [Hs|Hs]; [|lra].
  destruct (Req_EM_T _ 0); [lra|].
  replace ((0 + 0 * 0 * (1 / (2 * 1)) + 0 * 0 * (1 / (2 * 1))) / (1 / (2 * 1) + 1 / (2 * 1))) with 0 in Hn by lra. rewrite sqrt_0 in Hn.
  destruct (Rlt_dec 0 0); [lra|]. destruct (Rlt_dec _ 0); [discriminate|]. destruct (Req_EM_T 0 0); [discriminate|lra].
Qed.

(** a case: 10 long, from rest to rest with acceleration 1 and deceleration 2 and maximum speed 2: 2 time units and 2 length units of acceleration, 1 and 1 of deceleration, 7 at full speed *)
Example C64_case : exists m, sensible (Some 2) (Some 0) (Some 0) (Some 1) (Some 2) /\ new_movement 10 (Some 2) (Some 0) (Some 0) (Some 1) (Some 2) = TOk m /\
  mv_t m = 6.5 /\ l_at_t m 1 = 0.5 /\ l_at_t m 4 = 6 /\ l_at_t m 6 = 9.75.
Proof.
  assert (Hs : sensible (Some 2) (Some 0) (Some 0) (Some 1) (Some 2)) by (repeat split; cbn; lra).
  unfold new_movement, is0, dflt, inv2. destruct (Req_EM_T 1 0); [lra|]. destruct (Req_EM_T 2 0); [lra|]. cbn [orb].
  destruct (Rlt_dec 10 _); [lra|]. destruct (Rlt_dec _ 0); [lra|]. destruct (Rlt_dec _ 0); [lra|]. eexists. split; [exact Hs|]. split; [reflexivity|].
  unfold l_at_t; cbn [mv_l0 mv_l mv_l1 mv_t0 mv_tv mv_t1 mv_t mv_v0 mv_vmax mv_acc mv_dec over]. repeat split; try lra;
  repeat (destruct (Rlt_dec _ _); try lra).
Qed.
(** a movement that is too short to reach its maximum speed of 5 *)
Example C64_case_short : exists m, sensible (Some 5) (Some 0) (Some 0) (Some 1) (Some 1) /\ new_movement 4 (Some 5) (Some 0) (Some 0) (Some 1) (Some 1) = TOk m /\ mv_vmax m = 2 /\ mv_t m = 4.
Proof.
  assert (Hs : sensible (Some 5) (Some 0) (Some 0) (Some 1) (Some 1)) by (repeat split; cbn; lra).
  unfold new_movement, is0, dflt, inv2. destruct (Req_EM_T 1 0); [lra|]. cbn [orb].
  destruct (Rlt_dec 4 _); [|lra]. destruct (Req_EM_T _ 0); [lra|]. destruct (Rlt_dec _ 0); [lra|].
  replace ((4 + 0 * 0 * (1 / (2 * 1)) + 0 * 0 * (1 / (2 * 1))) / (1 / (2 * 1) + 1 / (2 * 1))) with (2 * 2) by lra. rewrite sqrt_square by lra.
  destruct (Rlt_dec _ 0); [lra|]. destruct (Req_EM_T 2 0); [lra|]. eexists. split; [exact Hs|]. split; [reflexivity|]. cbn. split; lra.
Qed.

Print Assumptions C64_covers.
Print Assumptions C64_speed.
Print Assumptions C64_speed_bounds.
Print Assumptions C64_monotone.
Print Assumptions C64_possible.
Print Assumptions C64_made_possible.
Print Assumptions C64_zero_length_refuted.
