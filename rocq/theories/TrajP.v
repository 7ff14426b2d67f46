(** Lemmas on the movement of Traj.v: the three phases. *)
From Coq Require Import Reals Lra Psatz List.
Import ListNotations.
From Verif Require Import Traj.
Open Scope R_scope.

(** sensible arguments of a movement: a positive maximum speed, no negative speeds at the ends, positive accelerations *)
Definition sensible (vmax v0 v1 acc dec : option R) : Prop :=
  0 < dflt 1 vmax /\ 0 <= dflt (dflt 1 vmax) v0 /\ 0 <= dflt (dflt 1 vmax) v1 /\
  match acc with None => True | Some a => 0 < a end /\ match dec with None => True | Some d => 0 < d end.

(** what is known of a movement made from sensible arguments; [vm]: the given maximum speed *)
Record made (L vm v0 v1 : R) (acc dec : option R) (m : movement) : Prop := mkMade {
  md_v0 : mv_v0 m = v0; md_acc : mv_acc m = acc; md_dec : mv_dec m = dec;
  md_pos : 0 < mv_vmax m <= vm; md_full : mv_vmax m = vm \/ mv_l m = 0;
  md_l0 : mv_l0 m = (mv_vmax m * mv_vmax m - v0 * v0) * inv2 acc; md_l1 : mv_l1 m = (mv_vmax m * mv_vmax m - v1 * v1) * inv2 dec;
  md_sum : mv_l0 m + mv_l m + mv_l1 m = L; md_l : 0 <= mv_l m;
  md_t0 : mv_t0 m = over (mv_vmax m - v0) acc; md_t1 : mv_t1 m = over (mv_vmax m - v1) dec; md_tv : mv_tv m = mv_l m / mv_vmax m;
  md_t : mv_t m = mv_t0 m + mv_tv m + mv_t1 m;
  md_up : match acc with None => True | Some _ => v0 <= mv_vmax m end;
  md_down : match dec with None => True | Some _ => v1 <= mv_vmax m end
}.

Lemma inv2_nn a : match a with None => True | Some a => 0 < a end -> 0 <= inv2 a.
Proof. destruct a as [a|]; cbn; intros; [|lra]. unfold Rdiv. rewrite Rmult_1_l. apply Rlt_le, Rinv_0_lt_compat. lra. Qed.
Lemma inv2_pos a : 0 < a -> 0 < inv2 (Some a).
Proof. cbn; intros. unfold Rdiv. rewrite Rmult_1_l. apply Rinv_0_lt_compat. lra. Qed.
Lemma is0_pos a : match a with None => True | Some a => 0 < a end -> is0 a = false.
Proof. destruct a as [a|]; cbn; auto. intros. destruct (Req_EM_T a 0); auto. lra. Qed.
Lemma sq_le x y : 0 <= y -> x * x <= y * y -> x <= y.
Proof. intros. destruct (Rle_dec x y); auto. nra. Qed.
Lemma prod_nn x k : 0 < k -> 0 <= x * k -> 0 <= x.
Proof. intros. destruct (Rle_dec 0 x); auto. nra. Qed.

Lemma new_made L vmax v0 v1 acc dec m : sensible vmax v0 v1 acc dec -> new_movement L vmax v0 v1 acc dec = TOk m ->
  made L (dflt 1 vmax) (dflt (dflt 1 vmax) v0) (dflt (dflt 1 vmax) v1) acc dec m.
Proof.
  intros (Hvm & H0 & H1 & Ha & Hd). unfold new_movement. rewrite (is0_pos _ Ha), (is0_pos _ Hd). cbn [orb].
  set (vm := dflt 1 vmax) in *. set (a := dflt vm v0) in *. set (b := dflt vm v1) in *. clearbody vm a b. clear vmax v0 v1.
  pose proof (inv2_nn _ Ha) as Ia. pose proof (inv2_nn _ Hd) as Id.
  assert (Hfin : forall W, 0 <= W <= vm -> W = vm \/ L - (W * W - a * a) * inv2 acc - (W * W - b * b) * inv2 dec = 0 -> 0 <= L - (W * W - a * a) * inv2 acc - (W * W - b * b) * inv2 dec ->
    (if Rlt_dec ((W * W - a * a) * inv2 acc) 0 then TEr TValue else if Rlt_dec ((W * W - b * b) * inv2 dec) 0 then TEr TValue else
     if Req_EM_T W 0 then TEr TZero else
     TOk (mkMove ((W * W - a * a) * inv2 acc) (L - (W * W - a * a) * inv2 acc - (W * W - b * b) * inv2 dec) ((W * W - b * b) * inv2 dec) (over (W - a) acc)
       ((L - (W * W - a * a) * inv2 acc - (W * W - b * b) * inv2 dec) / W) (over (W - b) dec)
       (over (W - a) acc + (L - (W * W - a * a) * inv2 acc - (W * W - b * b) * inv2 dec) / W + over (W - b) dec) a W acc dec)) = TOk m -> made L vm a b acc dec m).
  { intros W HW HWf Hl. destruct (Rlt_dec _ 0) as [|n0]; [discriminate|]. destruct (Rlt_dec _ 0) as [|n1]; [discriminate|]. destruct (Req_EM_T W 0) as [|nW]; [discriminate|].
    intros [= <-]. constructor; cbn; auto; try lra.
    - destruct acc as [c|]; auto. pose proof (inv2_pos c Ha) as K. apply sq_le; [lra|]. assert (0 <= W * W - a * a) by (apply (prod_nn _ _ K); lra). lra.
    - destruct dec as [c|]; auto. pose proof (inv2_pos c Hd) as K. apply sq_le; [lra|]. assert (0 <= W * W - b * b) by (apply (prod_nn _ _ K); lra). lra. }
  destruct (Rlt_dec L _) as [Hs|Hs].
  - destruct (Req_EM_T (inv2 acc + inv2 dec) 0) as [|nz]; [discriminate|]. destruct (Rlt_dec _ 0) as [|nn]; [discriminate|].
    set (sq := (L + a * a * inv2 acc + b * b * inv2 dec) / (inv2 acc + inv2 dec)) in *.
    assert (Hsq : sqrt sq * sqrt sq = sq) by (apply sqrt_sqrt; lra).
    assert (Hk : 0 < inv2 acc + inv2 dec) by lra.
    assert (Hm : sq * (inv2 acc + inv2 dec) = L + a * a * inv2 acc + b * b * inv2 dec) by (unfold sq; field; lra).
    intros Hx. apply (Hfin (sqrt sq)); auto.
    + split; [apply sqrt_pos|]. apply sq_le; [lra|]. rewrite Hsq. destruct (Rle_dec sq (vm * vm)); auto. exfalso.
      assert (vm * vm * (inv2 acc + inv2 dec) <= sq * (inv2 acc + inv2 dec)) by (apply Rmult_le_compat_r; lra). lra.
    + right. rewrite Hsq. lra.
    + rewrite Hsq. lra.
  - intros Hx. apply (Hfin vm); auto; lra.
Qed.

(** ** the phases *)
Section Made.
Variables (L vm v0 v1 : R) (acc dec : option R) (m : movement).
Hypothesis Hm : made L vm v0 v1 acc dec m.
Hypothesis Ha : match acc with None => True | Some a => 0 < a end.
Hypothesis Hd : match dec with None => True | Some d => 0 < d end.
Hypothesis H0 : 0 <= v0.
Hypothesis H1 : 0 <= v1.

Let W := mv_vmax m.
Lemma Wpos : 0 < W. Proof. exact (proj1 (md_pos _ _ _ _ _ _ _ Hm)). Qed.
Lemma t0_nn : 0 <= mv_t0 m.
Proof. rewrite (md_t0 _ _ _ _ _ _ _ Hm). pose proof (md_up _ _ _ _ _ _ _ Hm). destruct acc as [a|]; cbn; [|lra]. apply Rmult_le_pos; [lra|]. apply Rlt_le, Rinv_0_lt_compat, Ha. Qed.
Lemma t1_nn : 0 <= mv_t1 m.
Proof. rewrite (md_t1 _ _ _ _ _ _ _ Hm). pose proof (md_down _ _ _ _ _ _ _ Hm). destruct dec as [a|]; cbn; [|lra]. apply Rmult_le_pos; [lra|]. apply Rlt_le, Rinv_0_lt_compat, Hd. Qed.
Lemma tv_nn : 0 <= mv_tv m.
Proof. rewrite (md_tv _ _ _ _ _ _ _ Hm). apply Rmult_le_pos; [apply (md_l _ _ _ _ _ _ _ Hm)|]. apply Rlt_le, Rinv_0_lt_compat, Wpos. Qed.
Lemma l_tv : mv_l m = W * mv_tv m.
Proof. rewrite (md_tv _ _ _ _ _ _ _ Hm). unfold W. field. pose proof Wpos. unfold W in *. lra. Qed.
(** at full speed for a while only if the given maximum speed is reached *)
Lemma tv_full : 0 < mv_tv m -> W = vm.
Proof. intros. destruct (md_full _ _ _ _ _ _ _ Hm) as [|E]; auto. rewrite (md_tv _ _ _ _ _ _ _ Hm), E in H. unfold Rdiv in H. rewrite Rmult_0_l in H. lra. Qed.
Lemma up_end a : acc = Some a -> W = v0 + a * mv_t0 m.
Proof. intros ->. rewrite (md_t0 _ _ _ _ _ _ _ Hm). cbn. unfold W. field. lra. Qed.
Lemma down_end d : dec = Some d -> W = v1 + d * mv_t1 m.
Proof. intros ->. rewrite (md_t1 _ _ _ _ _ _ _ Hm). cbn. unfold W. field. lra. Qed.
Lemma l0_up a : acc = Some a -> mv_l0 m = v0 * mv_t0 m + a * (mv_t0 m * mv_t0 m) / 2.
Proof. intros E. pose proof (up_end _ E) as U. rewrite (md_l0 _ _ _ _ _ _ _ Hm). subst acc. cbn [inv2]. fold W. rewrite U. field. lra. Qed.
Lemma l1_down d : dec = Some d -> mv_l1 m = W * mv_t1 m - d * (mv_t1 m * mv_t1 m) / 2.
Proof. intros E. pose proof (down_end _ E) as U. rewrite (md_l1 _ _ _ _ _ _ _ Hm). subst dec. cbn [inv2]. fold W. rewrite U. field. lra. Qed.
Lemma up_none : acc = None -> mv_t0 m = 0 /\ mv_l0 m = 0.
Proof. intros ->. rewrite (md_t0 _ _ _ _ _ _ _ Hm), (md_l0 _ _ _ _ _ _ _ Hm). cbn. lra. Qed.
Lemma down_none : dec = None -> mv_t1 m = 0 /\ mv_l1 m = 0.
Proof. intros ->. rewrite (md_t1 _ _ _ _ _ _ _ Hm), (md_l1 _ _ _ _ _ _ _ Hm). cbn. lra. Qed.

(** the position, phase by phase *)
Lemma pos_up t : 0 <= t <= mv_t0 m -> l_at_t m t = v0 * t + dflt 0 acc * (t * t) / 2.
Proof.
  intros Ht. pose proof (md_t _ _ _ _ _ _ _ Hm) as T. pose proof t1_nn. pose proof tv_nn. pose proof l_tv as LT. pose proof l0_up as LU. pose proof up_none as UN. pose proof down_none as DN.
  unfold l_at_t. destruct (Rlt_dec t 0); [lra|]. destruct (Rlt_dec (mv_t m) t); [lra|]. rewrite (md_acc _ _ _ _ _ _ _ Hm), (md_dec _ _ _ _ _ _ _ Hm), (md_v0 _ _ _ _ _ _ _ Hm). fold W.
  destruct acc as [a|].
  - pose proof (LU _ eq_refl) as E0. destruct (Rlt_dec t (mv_t0 m)); [cbn; reflexivity|]. assert (t = mv_t0 m) by lra. subst t. cbn [dflt].
    destruct (Rlt_dec _ (mv_tv m)); [rewrite E0; lra|]. assert (TV : mv_tv m = 0) by lra. rewrite E0, LT, TV. destruct dec; lra.
  - destruct (UN eq_refl) as [U1 U2]. assert (t = 0) by lra. subst t. cbn [dflt]. rewrite U1, U2. destruct dec; [|lra]. destruct (Rlt_dec 0 0); [lra|].
    destruct (Rlt_dec _ (mv_tv m)); [lra|]. assert (TV : mv_tv m = 0) by lra. rewrite LT, TV. lra.
Qed.
Lemma pos_full t : mv_t0 m <= t <= mv_t0 m + mv_tv m -> l_at_t m t = mv_l0 m + W * (t - mv_t0 m).
Proof.
  intros Ht. pose proof (md_t _ _ _ _ _ _ _ Hm) as T. pose proof t1_nn. pose proof tv_nn. pose proof t0_nn. pose proof l_tv as LT. pose proof l0_up as LU. pose proof up_none as UN. pose proof down_none as DN.
  unfold l_at_t. destruct (Rlt_dec t 0); [lra|]. destruct (Rlt_dec (mv_t m) t); [lra|]. rewrite (md_acc _ _ _ _ _ _ _ Hm), (md_dec _ _ _ _ _ _ _ Hm). fold W.
  destruct acc as [a|].
  - destruct (Rlt_dec t (mv_t0 m)); [lra|]. destruct (Rlt_dec _ (mv_tv m)); [lra|]. assert (t = mv_t0 m + mv_tv m) by lra. subst t. rewrite LT. destruct dec; lra.
  - destruct (UN eq_refl) as [U1 U2]. rewrite U1, U2. destruct dec; [|lra]. destruct (Rlt_dec t 0); [lra|]. destruct (Rlt_dec _ (mv_tv m)); [lra|]. assert (t = mv_tv m) by lra. subst t. rewrite LT. lra.
Qed.
Lemma pos_down t : mv_t0 m + mv_tv m <= t <= mv_t m -> l_at_t m t = mv_l0 m + mv_l m + W * (t - mv_t0 m - mv_tv m) - dflt 0 dec * ((t - mv_t0 m - mv_tv m) * (t - mv_t0 m - mv_tv m)) / 2.
Proof.
  intros Ht. pose proof (md_t _ _ _ _ _ _ _ Hm) as T. pose proof t1_nn. pose proof tv_nn. pose proof t0_nn. pose proof l_tv as LT. pose proof l0_up as LU. pose proof up_none as UN. pose proof down_none as DN.
  unfold l_at_t. destruct (Rlt_dec t 0); [lra|]. destruct (Rlt_dec (mv_t m) t); [lra|]. rewrite (md_acc _ _ _ _ _ _ _ Hm), (md_dec _ _ _ _ _ _ _ Hm). fold W.
  destruct acc as [a|].
  - destruct (Rlt_dec t (mv_t0 m)); [lra|]. destruct (Rlt_dec _ (mv_tv m)); [lra|]. destruct dec; cbn [dflt]; [lra|]. lra.
  - destruct (UN eq_refl) as [U1 U2]. rewrite U1, U2. destruct dec; cbn [dflt].
    + destruct (Rlt_dec t 0); [lra|]. destruct (Rlt_dec _ (mv_tv m)); [lra|]. lra.
    + destruct (DN eq_refl) as [D1 D2]. rewrite D1, U1 in T. assert (t = mv_tv m) by lra. subst t. rewrite LT. lra.
Qed.
Lemma T_nn : 0 <= mv_t m.
Proof. pose proof (md_t _ _ _ _ _ _ _ Hm). pose proof t0_nn. pose proof t1_nn. pose proof tv_nn. lra. Qed.
Lemma pos_start : l_at_t m 0 = 0.
Proof. rewrite pos_up; [lra|]. split; [lra|apply t0_nn]. Qed.
Lemma pos_end : l_at_t m (mv_t m) = L.
Proof.
  pose proof (md_t _ _ _ _ _ _ _ Hm) as T. pose proof t1_nn. pose proof l1_down as LD. pose proof down_none as DN. rewrite pos_down; [|lra]. replace (mv_t m - mv_t0 m - mv_tv m) with (mv_t1 m) by lra. rewrite <- (md_sum _ _ _ _ _ _ _ Hm).
  destruct dec as [d|]; cbn [dflt].
  - rewrite (LD _ eq_refl). lra.
  - destruct (DN eq_refl) as [D1 D2]. rewrite D1, D2. lra.
Qed.
Lemma pos_clamp t : l_at_t m t = l_at_t m (Rmax 0 (Rmin t (mv_t m))).
Proof.
  pose proof T_nn. destruct (Rle_dec t 0) as [Hl|Hl].
  - rewrite Rmin_left, Rmax_left by lra. destruct (Req_dec t 0); [subst; auto|]. rewrite pos_start. unfold l_at_t. destruct (Rlt_dec t 0); [auto|lra].
  - destruct (Rle_dec t (mv_t m)).
    + rewrite Rmin_left by lra. rewrite Rmax_right by lra. reflexivity.
    + rewrite Rmin_right by lra. rewrite Rmax_right by lra. unfold l_at_t at 1 2. destruct (Rlt_dec t 0); [lra|]. destruct (Rlt_dec (mv_t m) t); [|lra].
      destruct (Rlt_dec (mv_t m) 0); [lra|]. destruct (Rlt_dec (mv_t m) (mv_t m)); [lra|]. reflexivity.
Qed.
End Made.
