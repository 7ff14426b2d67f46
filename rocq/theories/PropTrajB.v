(** C65: where a trajectory is at each moment. Specification: the point at a given distance along a line through points, and along an arc of a circle. *)
From Coq Require Import Reals Lra Psatz List Lia.
Import ListNotations.
From Verif Require Import Traj TrajP PropTraj.
Open Scope R_scope.

(** ** specification *)
Notation point := (R * R)%type.
Definition distance (p q : point) : R := dist_euc (fst p) (snd p) (fst q) (snd q).
(** the point a fraction f of the way from p to q *)
Definition toward (p q : point) (f : R) : point := (fst p + f * (fst q - fst p), snd p + f * (snd q - snd p)).
(** the length of the line through the points *)
Fixpoint path_length (pts : list point) : R := match pts with p :: ((q :: _) as r) => distance p q + path_length r | _ => 0 end.
(** [along pts s x v]: x is at distance s along the line through the points, on a piece with direction v *)
Inductive along : list point -> R -> point -> R * R -> Prop :=
| along_here p q r f : 0 <= f <= 1 -> along (p :: q :: r) (f * distance p q) (toward p q f) (fst q - fst p, snd q - snd p)
| along_next p q r s x v : along (q :: r) s x v -> along (p :: q :: r) (distance p q + s) x v.
(** where a trajectory is *)
Definition position (tr : traj) (t : R) : point := (at_t AxX tr None t, at_t AxY tr None t).

(** ** lemmas on lines *)
Lemma distance_nn p q : 0 <= distance p q. Proof. unfold distance, dist_euc. apply sqrt_pos. Qed.
Lemma seg_distance p q : seg p q = distance p q.
Proof. unfold seg, distance, dist_euc, Rsqr. f_equal. cbn. ring. Qed.
Lemma distance_sym p q : distance p q = distance q p. Proof. apply distance_symm. Qed.
Lemma distance_tri p q r : distance p r <= distance p q + distance q r.
Proof. unfold distance. pose proof (triangle (fst p) (snd p) (fst r) (snd r) (fst q) (snd q)). lra. Qed.
Lemma distance_same p : distance p p = 0. Proof. apply distance_refl. Qed.
Lemma distance_toward p q f g : f <= g -> distance (toward p q f) (toward p q g) = (g - f) * distance p q.
Proof.
  intros Hfg. unfold distance, toward, dist_euc. cbn [fst snd].
  replace (Rsqr _ + Rsqr _) with (Rsqr (g - f) * (Rsqr (fst p - fst q) + Rsqr (snd p - snd q))) by (unfold Rsqr; ring).
  rewrite sqrt_mult_alt by apply Rle_0_sqr. rewrite sqrt_Rsqr by lra. reflexivity.
Qed.
Lemma toward_0 p q : toward p q 0 = p. Proof. destruct p, q; unfold toward; cbn. f_equal; ring. Qed.
Lemma toward_1 p q : toward p q 1 = q. Proof. destruct p, q; unfold toward; cbn. f_equal; ring. Qed.
Lemma distance_rest p q f : f <= 1 -> distance (toward p q f) q = (1 - f) * distance p q.
Proof. intros. rewrite <- (distance_toward p q f 1) by auto. rewrite toward_1. reflexivity. Qed.
Lemma path_nn pts : 0 <= path_length pts.
Proof. induction pts as [|p [|q r] IH]; cbn [path_length]; try lra. cbn [path_length] in IH. pose proof (distance_nn p q). destruct r; lra. Qed.
Lemma along_start p q r : along (p :: q :: r) 0 p (fst q - fst p, snd q - snd p).
Proof. rewrite <- (toward_0 p q) at 2. replace 0 with (0 * distance p q) at 1 by ring. constructor. lra. Qed.
Lemma along_nn pts s x v : along pts s x v -> 0 <= s.
Proof. induction 1; [apply Rmult_le_pos; [lra|apply distance_nn]|]. pose proof (distance_nn p q). lra. Qed.
Lemma along_le pts s x v : along pts s x v -> s <= path_length pts.
Proof.
  induction 1; cbn [path_length] in *.
  - pose proof (path_nn (q :: r)) as K. cbn [path_length] in K. pose proof (distance_nn p q). nra.
  - lra.
Qed.
(** points along a line are not farther apart than along the line *)
Lemma along_distance pts s x v s' x' v' : along pts s x v -> along pts s' x' v' -> s <= s' -> distance x x' <= s' - s.
Proof.
  intros H. revert s' x' v'. induction H as [p q r f Hf|p q r s x v H IH]; intros s' x' v' H' Hle.
  - inversion H' as [p0 q0 r0 g Hg|p0 q0 r0 s0 x0 v0 H0]; subst.
    + pose proof (distance_nn p q) as Dn. destruct (Rle_dec f g); [rewrite distance_toward by lra; lra|]. rewrite distance_sym, distance_toward by lra. nra.
    + pose proof (along_nn _ _ _ _ H0) as Hn. pose proof (distance_tri (toward p q f) q x') as T. rewrite distance_rest in T by lra.
      assert (K : forall pts q s x v, along (q :: pts) s x v -> distance q x <= s).
      { clear. intros pts. induction pts as [|b r IH]; intros q s x v H; inversion H as [p0 q0 r0 g Hg|p0 q0 r0 s0 x0 v0 H0]; subst.
        - rewrite <- (toward_0 q b) at 1. rewrite distance_toward by lra. lra.
        - pose proof (distance_tri q b x). pose proof (IH _ _ _ _ H0). lra. }
      pose proof (K _ _ _ _ _ H0). lra.
  - inversion H' as [p0 q0 r0 g Hg|p0 q0 r0 s0 x0 v0 H0]; subst.
    + pose proof (along_nn _ _ _ _ H) as Hn. pose proof (distance_nn p q) as Dn.
      assert (E : s = 0 /\ (1 - g) * distance p q = 0) by (split; nra). destruct E as [-> E].
      assert (Hr : exists b r', r = b :: r') by (inversion H; subst; eauto). destruct Hr as (b & r' & ->).
      pose proof (IH 0 q _ (along_start q b r') ltac:(lra)) as I. pose proof (distance_tri x q (toward p q g)) as T. rewrite (distance_sym q) in T. rewrite distance_rest in T by lra. nra.
    + pose proof (IH _ _ _ H0 ltac:(lra)). lra.
Qed.
(** so the distance determines the point *)
Lemma distance_0 p q : distance p q <= 0 -> p = q.
Proof.
  unfold distance, dist_euc. intros H. set (x := Rsqr _ + Rsqr _) in H. pose proof (sqrt_pos x) as P.
  assert (N : 0 <= x) by (unfold x; pose proof (Rle_0_sqr (fst p - fst q)); pose proof (Rle_0_sqr (snd p - snd q)); lra).
  assert (E : x = 0) by (apply sqrt_eq_0; auto; lra). unfold x in E. apply Rplus_sqr_eq_0 in E. destruct E as [E1 E2]. destruct p, q; cbn in *. f_equal; lra.
Qed.
Lemma along_unique pts s x v x' v' : along pts s x v -> along pts s x' v' -> x = x'.
Proof. intros A B. apply distance_0. pose proof (along_distance _ _ _ _ _ _ _ A B ltac:(lra)). lra. Qed.
Lemma along_end pts p q : exists v, along (p :: q :: pts) (path_length (p :: q :: pts)) (last (q :: pts) (0, 0)) v /\ v = (fst (last (q :: pts) (0, 0)) - fst (last (p :: removelast (q :: pts)) (0, 0)), snd (last (q :: pts) (0, 0)) - snd (last (p :: removelast (q :: pts)) (0, 0))).
Proof.
  revert p q; induction pts as [|b r IH]; intros p q.
  - eexists; split; [|reflexivity]. cbn. pose proof (along_here p q [] 1 ltac:(lra)) as K. rewrite toward_1, Rmult_1_l in K. rewrite Rplus_0_r. exact K.
  - destruct (IH q b) as (v & A & B). exists v. split; [|exact B]. change (path_length (p :: q :: b :: r)) with (distance p q + path_length (q :: b :: r)). constructor. exact A.
Qed.
Lemma last_cum c pts : pts <> [] -> last (cum_lengths c pts) 0 = c + path_length pts.
Proof.
  revert c; induction pts as [|p [|q r] IH]; intros c H; [congruence|cbn; lra|]. change (cum_lengths c (p :: q :: r)) with (c :: cum_lengths (c + seg p q) (q :: r)). change (path_length (p :: q :: r)) with (distance p q + path_length (q :: r)).
  rewrite <- seg_distance. specialize (IH (c + seg p q) ltac:(discriminate)). destruct (cum_lengths (c + seg p q) (q :: r)) eqn:E; [destruct r; discriminate|].
  change (last (c :: r0 :: l) 0) with (last (r0 :: l) 0). rewrite IH. lra.
Qed.
Lemma hd_cum c p r : hd 0 (cum_lengths c (p :: r)) = c. Proof. destruct r; reflexivity. Qed.
Lemma len_cum c p r : List.length (cum_lengths c (p :: r)) = S (List.length r).
Proof. revert c p; induction r as [|q r IH]; intros; auto. change (cum_lengths c (p :: q :: r)) with (c :: cum_lengths (c + seg p q) (q :: r)). cbn [List.length]. rewrite IH. reflexivity. Qed.
Lemma cum_cons c p q r : cum_lengths c (p :: q :: r) = c :: cum_lengths (c + seg p q) (q :: r). Proof. reflexivity. Qed.
Lemma dir_cons dir p q r : directions dir (p :: q :: r) = dir (fst q - fst p) (snd q - snd p) :: directions dir (q :: r). Proof. reflexivity. Qed.

(** the two points around a distance *)
Lemma along_interp pts : forall c l (dir : R -> R -> R), c < l -> l < last (cum_lengths c pts) 0 ->
  let cum := cum_lengths c pts in let i := (searchsorted cum l - 1)%nat in
  exists v, along pts (l - c) (interp2 l (nthR i cum) (nthR (S i) cum) (fst (nth i pts (0, 0))) (fst (nth (S i) pts (0, 0))), interp2 l (nthR i cum) (nthR (S i) cum) (snd (nth i pts (0, 0))) (snd (nth (S i) pts (0, 0)))) v /\
    (i < List.length (directions dir pts))%nat /\ nthR i (directions dir pts) = dir (fst v) (snd v).
Proof.
  induction pts as [|p [|q r] IH]; intros c l dir Hc Hl; [cbn in Hl; lra|cbn in Hl; lra|]. cbn zeta. rewrite cum_cons. cbn [searchsorted]. destruct (Rlt_dec c l); [|lra].
  pose proof (distance_nn p q) as Dn.
  replace (S (searchsorted (cum_lengths (c + seg p q) (q :: r)) l) - 1)%nat with (searchsorted (cum_lengths (c + seg p q) (q :: r)) l) by lia.
  destruct (Rlt_dec (c + seg p q) l) as [Hs|Hs].
  - assert (Hl' : l < last (cum_lengths (c + seg p q) (q :: r)) 0). { rewrite cum_cons in Hl. destruct (cum_lengths (c + seg p q) (q :: r)) eqn:E; [destruct r; discriminate|]. exact Hl. }
    destruct (IH (c + seg p q) l dir Hs Hl') as (v & A & B & C). cbn zeta in *. set (cum' := cum_lengths (c + seg p q) (q :: r)) in *.
    assert (Hk : searchsorted cum' l = S (searchsorted cum' l - 1)).
    { unfold cum'. destruct (cum_lengths (c + seg p q) (q :: r)) as [|h t] eqn:E; [destruct r; discriminate|]. pose proof (hd_cum (c + seg p q) q r) as Hh. rewrite E in Hh. cbn in Hh. subst h. cbn [searchsorted]. destruct (Rlt_dec (c + seg p q) l); [lia|lra]. }
    set (k := (searchsorted cum' l - 1)%nat) in *. rewrite Hk. exists v. split; [|split].
    + replace (l - c) with (distance p q + (l - (c + seg p q))) by (rewrite seg_distance; lra). constructor. exact A.
    + rewrite dir_cons. cbn [List.length]. lia.
    + rewrite dir_cons. exact C.
  - assert (Hk : searchsorted (cum_lengths (c + seg p q) (q :: r)) l = 0%nat).
    { destruct (cum_lengths (c + seg p q) (q :: r)) as [|h t] eqn:E; [destruct r; discriminate|]. pose proof (hd_cum (c + seg p q) q r) as Hh. rewrite E in Hh. cbn in Hh. subst h. cbn [searchsorted]. destruct (Rlt_dec (c + seg p q) l); [lra|reflexivity]. }
    rewrite Hk. exists (fst q - fst p, snd q - snd p). split; [|split; [rewrite dir_cons; cbn; lia|reflexivity]].
    assert (N1 : nthR 1 (c :: cum_lengths (c + seg p q) (q :: r)) = c + seg p q). { unfold nthR. cbn [nth]. pose proof (hd_cum (c + seg p q) q r) as Hh. destruct (cum_lengths (c + seg p q) (q :: r)); exact Hh. }
    rewrite N1. change (nthR 0 (c :: cum_lengths (c + seg p q) (q :: r))) with c. cbn [nth]. rewrite seg_distance in *. set (f := (l - c) / distance p q).
    assert (Dp : 0 < distance p q) by lra. assert (Ef : f * distance p q = l - c) by (unfold f; field; lra). assert (Hf : 0 <= f <= 1) by (split; nra).
    rewrite <- Ef. replace (interp2 l c (c + distance p q) (fst p) (fst q), interp2 l c (c + distance p q) (snd p) (snd q)) with (toward p q f); [constructor; auto|].
    unfold interp2, toward. destruct (Rlt_dec l c); [lra|]. destruct (Rlt_dec (c + distance p q) l); [lra|]. destruct (Rle_dec (c + distance p q) l).
    + assert (E1 : f = 1) by nra. rewrite E1. f_equal; ring.
    + unfold f. f_equal; field; lra.
Qed.

(** ** polygons *)
Lemma dirs_last dir p q r : exists v, v = (fst (last (q :: r) (0, 0)) - fst (last (p :: removelast (q :: r)) (0, 0)), snd (last (q :: r) (0, 0)) - snd (last (p :: removelast (q :: r)) (0, 0))) /\ lastR (directions dir (p :: q :: r)) = dir (fst v) (snd v).
Proof.
  revert p q; induction r as [|b r IH]; intros p q; [eexists; split; reflexivity|]. destruct (IH q b) as (v & A & B). exists v. split; [exact A|]. rewrite dir_cons. unfold lastR in *. rewrite dir_cons in *. exact B.
Qed.
Lemma len_dirs dir p r : List.length (directions dir (p :: r)) = List.length r.
Proof. revert p; induction r as [|q r IH]; intros; auto. rewrite dir_cons. cbn [List.length]. f_equal. apply IH. Qed.
Lemma nth_last {A} (l : list A) d : nth (List.length l - 1) l d = last l d.
Proof. induction l as [|x [|y r] IH]; auto. change (last (x :: y :: r) d) with (last (y :: r) d). rewrite <- IH. cbn. rewrite Nat.sub_0_r. reflexivity. Qed.
Lemma interp_here x a f : interp2 x a a f f = f.
Proof. unfold interp2. destruct (Rlt_dec x a); auto. destruct (Rlt_dec a x); auto. destruct (Rle_dec a x); auto. lra. Qed.

Lemma polygon_made t0 pts dir vmax v0 v1 acc dec tr : new_polygon t0 pts dir vmax v0 v1 acc dec = TOk tr ->
  exists m p q r, pts = p :: q :: r /\ new_movement (path_length pts) vmax v0 v1 acc dec = TOk m /\ tr = Polygon t0 pts (directions dir pts ++ [lastR (directions dir pts)]) (cum_lengths 0 pts) m.
Proof.
  unfold new_polygon. destruct pts as [|p [|q r]]; try discriminate. cbn zeta. unfold lastR at 1. rewrite last_cum by discriminate. rewrite Rplus_0_l.
  destruct (new_movement _ _ _ _ _ _) as [m|] eqn:E; [|discriminate]. intros [= <-]. exists m, p, q, r. auto.
Qed.
Lemma pair_eta (z : R * R) : (fst z, snd z) = z. Proof. destruct z; reflexivity. Qed.
Lemma polygon_at t0 pts dir p q r m u t : pts = p :: q :: r -> 0 <= l_at_t m (t - dflt t0 u) <= path_length pts ->
  let tr := Polygon t0 pts (directions dir pts ++ [lastR (directions dir pts)]) (cum_lengths 0 pts) m in
  exists v, along pts (l_at_t m (t - dflt t0 u)) (at_t AxX tr u t, at_t AxY tr u t) v /\ at_t AxAngle tr u t = dir (fst v) (snd v).
Proof.
  intros E Hl. cbn zeta. unfold at_t, indexes. set (l := l_at_t m (t - dflt t0 u)) in *.
  assert (Hh : hd 0 (cum_lengths 0 pts) = 0) by (rewrite E; apply hd_cum). assert (HL : lastR (cum_lengths 0 pts) = path_length pts) by (unfold lastR; rewrite last_cum by (rewrite E; discriminate); lra).
  rewrite Hh, HL. destruct (Rle_dec l 0).
  - assert (l = 0) by lra. rewrite H. rewrite !interp_here. rewrite E. cbn [nth]. exists (fst q - fst p, snd q - snd p). split; [cbn [coord]; rewrite <- (surjective_pairing p); apply along_start|]. rewrite dir_cons. reflexivity.
  - destruct (Rle_dec (path_length pts) l).
    + assert (El : l = path_length pts) by lra. rewrite El. rewrite !interp_here. assert (Hlen : List.length (cum_lengths 0 pts) = List.length pts) by (rewrite E, len_cum; reflexivity). rewrite Hlen, nth_last. cbn [coord]. rewrite pair_eta. rewrite E.
      destruct (along_end r p q) as (v & A & B). destruct (dirs_last dir p q r) as (w & C & D). exists v. change (last (p :: q :: r) (0, 0)) with (last (q :: r) (0, 0)). split; [exact A|].
      unfold nthR. replace (List.length (p :: q :: r) - 1)%nat with (List.length (directions dir (p :: q :: r))) by (rewrite len_dirs; cbn; reflexivity). rewrite app_nth2 by lia. rewrite Nat.sub_diag. cbn [nth]. rewrite D, C, B. reflexivity.
    + destruct (along_interp pts 0 l dir) as (v & A & B & C); [lra|rewrite last_cum by (rewrite E; discriminate); lra|]. cbn zeta in *. rewrite Rminus_0_r in A. exists v. split; [exact A|]. unfold nthR in *. rewrite app_nth1 by auto. exact C.
Qed.
Lemma l_range L vmax v0 v1 acc dec m t : sensible vmax v0 v1 acc dec -> new_movement L vmax v0 v1 acc dec = TOk m -> 0 <= l_at_t m t <= L.
Proof.
  intros Hs Hn. destruct (C64_covers _ _ _ _ _ _ _ Hs Hn) as (A & B & C). destruct (Rle_dec t 0).
  - rewrite B by auto. pose proof (C64_monotone _ _ _ _ _ _ _ 0 (mv_t m) Hs Hn A) as K. rewrite (B 0), (C (mv_t m)) in K by lra. lra.
  - pose proof (C64_monotone _ _ _ _ _ _ _ 0 t Hs Hn ltac:(lra)) as K. rewrite (B 0) in K by lra. pose proof (C64_monotone _ _ _ _ _ _ _ t (t + mv_t m) Hs Hn ltac:(lra)) as K'. rewrite (C (t + mv_t m)) in K' by lra. lra.
Qed.

(** ** C65 *)
(** on a polygon, the position is the point at the distance that the movement over its length has covered, and the angle is the one for the direction of that piece *)
Theorem C65_polygon : forall t0 pts dir vmax v0 v1 acc dec tr, sensible vmax v0 v1 acc dec -> new_polygon t0 pts dir vmax v0 v1 acc dec = TOk tr ->
  exists m, new_movement (path_length pts) vmax v0 v1 acc dec = TOk m /\ duration tr = mv_t m /\ length_ tr = path_length pts /\
    forall t, exists v, along pts (l_at_t m (t - t0)) (position tr t) v /\ at_t AxAngle tr None t = dir (fst v) (snd v).
Proof.
  intros t0 pts dir vmax v0 v1 acc dec tr Hs Hn. destruct (polygon_made _ _ _ _ _ _ _ _ _ Hn) as (m & p & q & r & E & Em & ->). exists m. split; [auto|]. split; [reflexivity|]. split.
  { cbn. unfold lastR. rewrite last_cum by (rewrite E; discriminate). lra. }
  intros t. apply (polygon_at t0 pts dir p q r m None t E). cbn [dflt]. eapply l_range; eauto.
Qed.
(** the point at a distance is the only one *)
Theorem C65_spec_unique : forall pts s x v x' v', along pts s x v -> along pts s x' v' -> x = x'.
Proof. exact along_unique. Qed.
(** it starts at the first point and ends at the last *)
Theorem C65_polygon_ends : forall t0 pts dir vmax v0 v1 acc dec tr t, sensible vmax v0 v1 acc dec -> new_polygon t0 pts dir vmax v0 v1 acc dec = TOk tr ->
  (t <= start tr -> position tr t = hd (0, 0) pts) /\ (stop tr <= t -> position tr t = last pts (0, 0)).
Proof.
  intros t0 pts dir vmax v0 v1 acc dec tr t Hs Hn. destruct (C65_polygon _ _ _ _ _ _ _ _ _ Hs Hn) as (m & Em & _ & _ & A). destruct (polygon_made _ _ _ _ _ _ _ _ _ Hn) as (m' & p & q & r & E & Em' & ->).
  rewrite Em in Em'. injection Em' as <-. destruct (C64_covers _ _ _ _ _ _ _ Hs Em) as (_ & B & C). destruct (A t) as (v & A1 & _). unfold stop. cbn [start duration]. split; intros Ht.
  - rewrite B in A1 by lra. rewrite E in *. eapply along_unique; [exact A1|apply along_start].
  - rewrite C in A1 by lra. rewrite E in *. destruct (along_end r p q) as (w & W & _). eapply along_unique; [exact A1|exact W].
Qed.
(** no jumps: never faster than the given maximum *)
Theorem C65_polygon_no_jumps : forall t0 pts dir vmax v0 v1 acc dec tr t1 t2, sensible vmax v0 v1 acc dec -> new_polygon t0 pts dir vmax v0 v1 acc dec = TOk tr -> t1 <= t2 ->
  distance (position tr t1) (position tr t2) <= dflt 1 vmax * (t2 - t1).
Proof.
  intros t0 pts dir vmax v0 v1 acc dec tr t1 t2 Hs Hn Ht. destruct (C65_polygon _ _ _ _ _ _ _ _ _ Hs Hn) as (m & Em & _ & _ & A).
  destruct (A t1) as (v & A1 & _). destruct (A t2) as (w & A2 & _). pose proof (C64_monotone _ _ _ _ _ _ _ (t1 - t0) (t2 - t0) Hs Em ltac:(lra)) as K.
  pose proof (along_distance _ _ _ _ _ _ _ A1 A2 ltac:(lra)). replace (t2 - t1) with (t2 - t0 - (t1 - t0)) by ring. lra.
Qed.

(** ** circles *)
Lemma sin_abs x : Rabs (sin x) <= Rabs x.
Proof.
  assert (P : forall x, 0 <= x -> Rabs (sin x) <= x).
  { clear. intros x Hx. apply Rabs_le. destruct (Req_dec x 0) as [->|]; [rewrite sin_0; lra|]. split; [|apply Rlt_le, sin_lt_x; lra].
    pose proof PI2_1. destruct (Rle_dec x PI); [pose proof (sin_ge_0 x ltac:(lra) ltac:(lra)); lra|]. pose proof (SIN_bound x). lra. }
  destruct (Rle_dec 0 x); [rewrite (Rabs_pos_eq x) by lra; auto|]. rewrite <- (Rabs_Ropp (sin x)), <- sin_neg, (Rabs_left x) by lra. apply P. lra.
Qed.
Definition on_circle (xc yc radius al : R) : point := (xc + radius * cos (radians al), yc + radius * sin (radians al)).
Lemma chord xc yc radius a b : 0 <= radius -> distance (on_circle xc yc radius a) (on_circle xc yc radius b) <= radius * Rabs (radians (b - a)).
Proof.
  intros Hr. unfold distance, on_circle, dist_euc. cbn [fst snd]. set (x := radians a). set (y := radians b). set (h := (y - x) / 2).
  assert (E : (xc + radius * cos x - (xc + radius * cos y))² + (yc + radius * sin x - (yc + radius * sin y))² = (2 * radius * sin h)²).
  { assert (S2 : (sin h)² = (1 - cos (y - x)) / 2). { replace (y - x) with (2 * h) by (unfold h; field). rewrite cos_2a_sin. unfold Rsqr. field. }
    replace ((2 * radius * sin h)²) with (4 * radius² * (sin h)²) by (unfold Rsqr; ring). rewrite S2, cos_minus. pose proof (sin2_cos2 x) as Px. pose proof (sin2_cos2 y) as Py. unfold Rsqr in *.
    transitivity (radius * radius * ((sin x * sin x + cos x * cos x) + (sin y * sin y + cos y * cos y) - 2 * (cos y * cos x + sin y * sin x))); [ring|]. rewrite Px, Py. field. }
  rewrite E, sqrt_Rsqr_abs, Rabs_mult. rewrite (Rabs_pos_eq (2 * radius)) by lra. pose proof (sin_abs h) as K.
  replace (radians (b - a)) with (2 * h) by (unfold h, x, y, radians; field). rewrite (Rabs_mult 2). rewrite (Rabs_pos_eq 2) by lra. nra.
Qed.
Lemma circle_length_l t0 L vmax v0 v1 acc dec m t : sensible vmax v0 v1 acc dec -> new_movement L vmax v0 v1 acc dec = TOk m -> circle_length t0 m t = l_at_t m (t - t0).
Proof.
  intros Hs Hn. destruct (C64_covers _ _ _ _ _ _ _ Hs Hn) as (A & B & C). unfold circle_length. cbn zeta. destruct (Rlt_dec t t0); [rewrite !B by lra; reflexivity|]. destruct (Rlt_dec (t0 + mv_t m) t); [rewrite !C by lra; reflexivity|reflexivity].
Qed.
Lemma circle_made t0 radius xc yc angle0 angle1 orient vmax v0 v1 acc dec tr : new_circle t0 radius xc yc angle0 angle1 orient vmax v0 v1 acc dec = TOk tr ->
  exists m, new_movement (Rabs (radians (angle1 - angle0)) * radius) vmax v0 v1 acc dec = TOk m /\ tr = Circle t0 radius xc yc angle0 angle1 (Rabs (radians (angle1 - angle0)) * radius) orient m.
Proof. unfold new_circle. cbn zeta. destruct (new_movement _ _ _ _ _ _) as [m|]; [|discriminate]. intros [= <-]. eauto. Qed.
Lemma circle_f radius angle0 angle1 l : let len := Rabs (radians (angle1 - angle0)) * radius in 0 <= radius -> 0 <= l <= len ->
  exists f, 0 <= f <= 1 /\ interp2 l 0 len angle0 angle1 = angle0 + f * (angle1 - angle0) /\ radius * Rabs (radians (f * (angle1 - angle0))) = l.
Proof.
  intros len Hr Hl. assert (G : forall f, 0 <= f -> radius * Rabs (radians (f * (angle1 - angle0))) = f * len).
  { intros f Hf. unfold len. replace (radians (f * (angle1 - angle0))) with (f * radians (angle1 - angle0)) by (unfold radians; field). rewrite Rabs_mult, (Rabs_pos_eq f) by auto. ring. }
  destruct (Req_dec l len) as [E|E].
  - exists 1. split; [lra|]. split; [|rewrite G; lra]. unfold interp2. destruct (Rlt_dec l 0); [lra|]. destruct (Rlt_dec len l); [lra|]. destruct (Rle_dec len l); lra.
  - exists (l / len). assert (E1 : l / len * len = l) by (field; lra). split; [split; apply (Rmult_le_reg_r len); lra|]. split.
    + unfold interp2. destruct (Rlt_dec l 0); [lra|]. destruct (Rlt_dec len l); [lra|]. destruct (Rle_dec len l); [lra|]. field. lra.
    + rewrite G; auto. apply (Rmult_le_reg_r len); lra.
Qed.
(** on a circle, the position is on the arc between the two angles, as far (measured along the arc) from its start as the movement has come, and the angle is along the tangent *)
Theorem C65_circle : forall t0 radius xc yc angle0 angle1 orient vmax v0 v1 acc dec tr, 0 <= radius -> sensible vmax v0 v1 acc dec ->
  new_circle t0 radius xc yc angle0 angle1 orient vmax v0 v1 acc dec = TOk tr ->
  exists m, new_movement (Rabs (radians (angle1 - angle0)) * radius) vmax v0 v1 acc dec = TOk m /\ duration tr = mv_t m /\ length_ tr = Rabs (radians (angle1 - angle0)) * radius /\
    forall t, length_at tr None (Some t) = TOk (l_at_t m (t - t0)) /\
      exists f, 0 <= f <= 1 /\ let al := angle0 + f * (angle1 - angle0) in
        position tr t = on_circle xc yc radius al /\ radius * Rabs (radians (al - angle0)) = l_at_t m (t - t0) /\
        at_t AxAngle tr None t = dflt (fun x => x) orient (if Rlt_dec angle0 angle1 then al + 90 else al - 90).
Proof.
  intros t0 radius xc yc angle0 angle1 orient vmax v0 v1 acc dec tr Hr Hs Hn. destruct (circle_made _ _ _ _ _ _ _ _ _ _ _ _ _ Hn) as (m & Em & ->). exists m. split; [auto|]. split; [reflexivity|]. split; [reflexivity|].
  intros t. split.
  - cbn [length_at dflt]. erewrite circle_length_l; eauto.
  - pose proof (l_range _ _ _ _ _ _ _ (t - t0) Hs Em) as Hl. destruct (circle_f radius angle0 angle1 _ Hr Hl) as (f & F1 & F2 & F3). exists f. split; [auto|]. cbn zeta. unfold position. cbn [at_t dflt]. erewrite circle_length_l by eauto. rewrite F2.
    split; [reflexivity|]. split; [|reflexivity]. rewrite <- F3. do 3 f_equal. ring.
Qed.
Theorem C65_circle_radius : forall t0 radius xc yc angle0 angle1 orient vmax v0 v1 acc dec tr t, 0 <= radius -> sensible vmax v0 v1 acc dec ->
  new_circle t0 radius xc yc angle0 angle1 orient vmax v0 v1 acc dec = TOk tr -> distance (position tr t) (xc, yc) = radius.
Proof.
  intros t0 radius xc yc angle0 angle1 orient vmax v0 v1 acc dec tr t Hr Hs Hn. destruct (C65_circle _ _ _ _ _ _ _ _ _ _ _ _ _ Hr Hs Hn) as (m & _ & _ & _ & A). destruct (A t) as (_ & f & _ & -> & _ & _).
  unfold distance, on_circle, dist_euc. cbn [fst snd]. set (x := radians _). replace (_ + _) with (radius² * ((sin x)² + (cos x)²)) by (unfold Rsqr; ring). rewrite sin2_cos2, Rmult_1_r. apply sqrt_Rsqr; auto.
Qed.
Theorem C65_circle_ends : forall t0 radius xc yc angle0 angle1 orient vmax v0 v1 acc dec tr t, 0 < radius -> sensible vmax v0 v1 acc dec ->
  new_circle t0 radius xc yc angle0 angle1 orient vmax v0 v1 acc dec = TOk tr ->
  (t <= start tr -> position tr t = on_circle xc yc radius angle0) /\ (stop tr <= t -> position tr t = on_circle xc yc radius angle1).
Proof.
  intros t0 radius xc yc angle0 angle1 orient vmax v0 v1 acc dec tr t Hr Hs Hn. destruct (C65_circle _ _ _ _ _ _ _ _ _ _ _ _ _ (Rlt_le _ _ Hr) Hs Hn) as (m & Em & _ & _ & A). destruct (A t) as (_ & f & F & -> & D & _).
  destruct (circle_made _ _ _ _ _ _ _ _ _ _ _ _ _ Hn) as (m' & Em' & ->). rewrite Em in Em'. injection Em' as <-. destruct (C64_covers _ _ _ _ _ _ _ Hs Em) as (_ & B & C). unfold stop. cbn [start duration].
  replace (angle0 + f * (angle1 - angle0) - angle0) with (f * (angle1 - angle0)) in D by ring. replace (radians (f * (angle1 - angle0))) with (f * radians (angle1 - angle0)) in D by (unfold radians; field).
  rewrite Rabs_mult, (Rabs_pos_eq f) in D by lra. set (x := radians (angle1 - angle0)) in *. assert (X0 : Rabs x = 0 -> angle1 - angle0 = 0).
  { intros H. assert (x = 0) by (destruct (Req_dec x 0); auto; pose proof (Rabs_pos_lt x ltac:(auto)); lra). unfold x, radians in H0. pose proof PI_RGT_0. assert ((angle1 - angle0) * PI = 0) by lra. apply Rmult_integral in H2. destruct H2; lra. }
  pose proof (Rabs_pos x) as Xp. split; intros Ht.
  - rewrite B in D by lra. assert (E : f * Rabs x = 0) by nra. apply Rmult_integral in E. destruct E as [->|E]; [|rewrite (X0 E)]; f_equal; ring.
  - rewrite C in D by lra. assert (E : (1 - f) * Rabs x = 0) by nra. apply Rmult_integral in E. f_equal. destruct E as [E|E]; [replace f with 1 by lra; ring|]. rewrite (X0 E). pose proof (X0 E). lra.
Qed.
Theorem C65_circle_no_jumps : forall t0 radius xc yc angle0 angle1 orient vmax v0 v1 acc dec tr t1 t2, 0 <= radius -> sensible vmax v0 v1 acc dec ->
  new_circle t0 radius xc yc angle0 angle1 orient vmax v0 v1 acc dec = TOk tr -> t1 <= t2 -> distance (position tr t1) (position tr t2) <= dflt 1 vmax * (t2 - t1).
Proof.
  intros t0 radius xc yc angle0 angle1 orient vmax v0 v1 acc dec tr t1 t2 Hr Hs Hn Ht. destruct (C65_circle _ _ _ _ _ _ _ _ _ _ _ _ _ Hr Hs Hn) as (m & Em & _ & _ & A).
  destruct (A t1) as (_ & f & F & -> & D1 & _). destruct (A t2) as (_ & g & G & -> & D2 & _). pose proof (C64_monotone _ _ _ _ _ _ _ (t1 - t0) (t2 - t0) Hs Em ltac:(lra)) as K.
  eapply Rle_trans; [apply chord; auto|]. rewrite <- D1, <- D2 in K. replace (t2 - t1) with (t2 - t0 - (t1 - t0)) by ring.
  replace (angle0 + g * (angle1 - angle0) - (angle0 + f * (angle1 - angle0))) with ((g - f) * (angle1 - angle0)) by ring.
  replace (angle0 + f * (angle1 - angle0) - angle0) with (f * (angle1 - angle0)) in K by ring. replace (angle0 + g * (angle1 - angle0) - angle0) with (g * (angle1 - angle0)) in K by ring.
  assert (R : forall k, radians (k * (angle1 - angle0)) = k * radians (angle1 - angle0)) by (intros; unfold radians; field). rewrite !R, !Rabs_mult in *. set (x := Rabs (radians (angle1 - angle0))) in *. pose proof (Rabs_pos (radians (angle1 - angle0))) as Xp. fold x in Xp.
  rewrite (Rabs_pos_eq f), (Rabs_pos_eq g) in K by lra. destruct (Rle_dec f g); [rewrite (Rabs_pos_eq (g - f)) by lra; lra|]. rewrite (Rabs_left (g - f)) by lra.
  assert (0 <= radius * x) by (apply Rmult_le_pos; auto). assert (radius * (g * x) - radius * (f * x) = (g - f) * (radius * x)) by ring. assert ((g - f) * (radius * x) <= 0) by nra. assert (radius * (- (g - f) * x) = 0) by nra. rewrite H2. lra.
Qed.

(** ** the length covered so far, length(t) *)
(** on a polygon: right until the end of the first piece, and from the end on *)
Theorem C65_polygon_length_partial : forall t0 p q r dir vmax v0 v1 acc dec tr t, sensible vmax v0 v1 acc dec -> new_polygon t0 (p :: q :: r) dir vmax v0 v1 acc dec = TOk tr ->
  exists m, new_movement (path_length (p :: q :: r)) vmax v0 v1 acc dec = TOk m /\
    (l_at_t m (t - t0) <= distance p q \/ stop tr <= t -> length_at tr None (Some t) = TOk (l_at_t m (t - t0))) /\ length_at tr None None = TOk (path_length (p :: q :: r)).
Proof.
  intros t0 p q r dir vmax v0 v1 acc dec tr t Hs Hn. destruct (polygon_made _ _ _ _ _ _ _ _ _ Hn) as (m & p' & q' & r' & E & Em & ->). injection E as <- <- <-. exists m. split; [auto|].
  destruct (C64_covers _ _ _ _ _ _ _ Hs Em) as (A & B & C). pose proof (l_range _ _ _ _ _ _ _ (t - t0) Hs Em) as Hl.
  assert (HL : lastR (cum_lengths 0 (p :: q :: r)) = path_length (p :: q :: r)) by (unfold lastR; rewrite last_cum by discriminate; lra).
  assert (HN : nthR (List.length (cum_lengths 0 (p :: q :: r)) - 1) (cum_lengths 0 (p :: q :: r)) = path_length (p :: q :: r)) by (unfold nthR; rewrite nth_last; exact HL).
  assert (HZ : nthR 0 (cum_lengths 0 (p :: q :: r)) = 0) by reflexivity.
  unfold stop. cbn [start duration length_at dflt]. unfold indexes. rewrite HL, (hd_cum 0 p (q :: r)). split.
  - intros Hd. set (l := l_at_t m (t - t0)) in *. destruct (Rle_dec l 0); [rewrite HZ; f_equal; lra|]. destruct (Rle_dec (path_length (p :: q :: r)) l); [rewrite HN; f_equal; lra|].
    assert (K : searchsorted (cum_lengths 0 (p :: q :: r)) l = 1%nat).
    { destruct Hd as [Hd|Hd]; [|exfalso; assert (l = path_length (p :: q :: r)) by (unfold l; apply C; lra); lra]. rewrite cum_cons. cbn [searchsorted]. destruct (Rlt_dec 0 l); [|lra]. f_equal.
      pose proof (hd_cum (0 + seg p q) q r) as Hh. destruct (cum_lengths (0 + seg p q) (q :: r)) as [|h u]; [reflexivity|]. cbn in Hh. subst h. cbn [searchsorted]. rewrite seg_distance. destruct (Rlt_dec (0 + distance p q) l); [lra|reflexivity]. }
    rewrite K. cbn [Nat.sub]. rewrite HZ. f_equal. lra.
  - rewrite C by lra. destruct (Rle_dec (path_length (p :: q :: r)) 0).
    + rewrite HZ. f_equal. lra.
    + destruct (Rle_dec (path_length (p :: q :: r)) (path_length (p :: q :: r))); [|lra]. rewrite HN. f_equal. lra.
Qed.
Lemma corner_case : exists tr m, new_polygon 0 [(0, 0); (1, 0); (1, 1)] (fun _ _ => 0) None None None None None = TOk tr /\ new_movement (path_length [(0, 0); (1, 0); (1, 1)]) None None None None None = TOk m /\
  path_length [(0, 0); (1, 0); (1, 1)] = 2 /\ l_at_t m 1.5 = 1.5 /\ length_at tr None (Some 1.5) = TOk 2.5 /\ tr = Polygon 0 [(0, 0); (1, 0); (1, 1)] [0; 0; 0] [0; 1; 2] m /\ mv_t m = 2.
Proof.
  assert (S1 : seg (0, 0) (1, 0) = 1). { unfold seg; cbn. replace ((1 - 0) * (1 - 0) + (0 - 0) * (0 - 0)) with 1 by ring. apply sqrt_1. }
  assert (S2 : seg (1, 0) (1, 1) = 1). { unfold seg; cbn. replace ((1 - 1) * (1 - 1) + (1 - 0) * (1 - 0)) with 1 by ring. apply sqrt_1. }
  assert (PL : path_length [(0, 0); (1, 0); (1, 1)] = 2). { cbn [path_length]. rewrite <- !seg_distance, S1, S2. lra. }
  assert (CL : cum_lengths 0 [(0, 0); (1, 0); (1, 1)] = [0; 1; 2]). { cbn [cum_lengths]. rewrite S1, S2. repeat f_equal; lra. }
  assert (M : exists m, new_movement 2 None None None None None = TOk m /\ l_at_t m 1.5 = 1.5 /\ mv_t m = 2).
  { unfold new_movement, is0, dflt, inv2. cbn [orb]. destruct (Rlt_dec 2 _); [lra|]. destruct (Rlt_dec _ 0); [lra|]. destruct (Req_EM_T 1 0); [lra|]. eexists. split; [reflexivity|]. split; [|cbn; lra].
    unfold l_at_t. cbn [mv_l0 mv_l mv_l1 mv_t0 mv_tv mv_t1 mv_t mv_v0 mv_vmax mv_acc mv_dec over]. destruct (Rlt_dec 1.5 0); [lra|]. destruct (Rlt_dec _ 1.5); lra. }
  destruct M as (m & M1 & M2 & M3). unfold new_polygon. cbn zeta. rewrite CL. unfold lastR at 1. cbn [last]. rewrite M1. exists (Polygon 0 [(0, 0); (1, 0); (1, 1)] [0; 0; 0] [0; 1; 2] m), m. rewrite PL.
  split; [reflexivity|]. split; [exact M1|]. split; [reflexivity|]. split; [exact M2|]. split; [|split; [reflexivity|exact M3]]. cbn [length_at dflt]. unfold indexes. rewrite Rminus_0_r, M2. unfold lastR. cbn [hd last].
  destruct (Rle_dec 1.5 0); [lra|]. destruct (Rle_dec 2 1.5); [lra|]. cbn [searchsorted]. destruct (Rlt_dec 0 1.5); [|lra]. destruct (Rlt_dec 1 1.5); [|lra]. destruct (Rlt_dec 2 1.5); [lra|]. cbn. f_equal. lra.
Qed.
(** refuted: on later pieces length(t) counts the earlier pieces twice; halfway the second piece of a path of length 2 it says 2.5 *)
Theorem C65_polygon_length_refuted : ~ (forall t0 pts dir vmax v0 v1 acc dec tr t l, sensible vmax v0 v1 acc dec -> new_polygon t0 pts dir vmax v0 v1 acc dec = TOk tr -> length_at tr None (Some t) = TOk l ->
  exists v, along pts l (position tr t) v).
Proof.
  intros H. destruct corner_case as (tr & m & A & B & C & D & E & F & G). destruct (H 0 [(0, 0); (1, 0); (1, 1)] (fun _ _ => 0) None None None None None tr 1.5 2.5) as [v K]; auto; [repeat split; cbn; lra|]. apply along_le in K. rewrite C in K. lra.
Qed.
(** length() without a time, documented as the total length, raises TypeError for every circle *)
Theorem C65_circle_length_raises : forall t0 radius xc yc angle0 angle1 orient vmax v0 v1 acc dec tr,
  new_circle t0 radius xc yc angle0 angle1 orient vmax v0 v1 acc dec = TOk tr -> length_at tr None None = TEr TType.
Proof. intros. destruct (circle_made _ _ _ _ _ _ _ _ _ _ _ _ _ H) as (m & _ & ->). reflexivity. Qed.
Theorem C65_circle_length_refuted : ~ (forall t0 radius xc yc angle0 angle1 orient vmax v0 v1 acc dec tr, 0 <= radius -> sensible vmax v0 v1 acc dec ->
  new_circle t0 radius xc yc angle0 angle1 orient vmax v0 v1 acc dec = TOk tr -> length_at tr None None = TOk (Rabs (radians (angle1 - angle0)) * radius)).
Proof.
  intros H. assert (E : exists tr, new_circle 0 2 0 0 0 180 None None None None None None = TOk tr).
  { unfold new_circle. cbn zeta. destruct (C64_possible (Rabs (radians (180 - 0)) * 2) None None None None None) as [m ->]; try (repeat split; cbn; lra); try (intros; cbn; lra); [|eauto].
    unfold radians. replace ((180 - 0) * PI / 180) with PI by field. pose proof PI_RGT_0. rewrite Rabs_pos_eq; lra. }
  destruct E as [tr E]. pose proof (C65_circle_length_raises _ _ _ _ _ _ _ _ _ _ _ _ _ E) as K. apply H in E; [rewrite E in K; discriminate|lra|repeat split; cbn; lra].
Qed.

(** ** standing still *)
Theorem C65_standstill : forall t0 d x y an t, position (new_standstill t0 d x y an) t = (x, y) /\ at_t AxAngle (new_standstill t0 d x y an) None t = an /\ stop (new_standstill t0 d x y an) = t0 + d.
Proof. intros. repeat split. Qed.

Example C65_case_polygon : exists tr m, new_polygon 0 [(0, 0); (1, 0); (1, 1)] (fun _ _ => 0) None None None None None = TOk tr /\ sensible None None None None None /\
  new_movement (path_length [(0, 0); (1, 0); (1, 1)]) None None None None None = TOk m /\ l_at_t m 1.5 = 1.5 /\ position tr 1.5 = (1, 0.5).
Proof.
  destruct corner_case as (tr & m & A & B & C & D & E & F & G). exists tr, m. split; [auto|]. split; [repeat split; cbn; lra|]. split; [auto|]. split; [auto|]. subst tr. unfold position. cbn [at_t dflt]. unfold indexes. rewrite Rminus_0_r, D. unfold lastR. cbn [hd last].
  destruct (Rle_dec 1.5 0); [lra|]. destruct (Rle_dec 2 1.5); [lra|]. cbn [searchsorted]. destruct (Rlt_dec 0 1.5); [|lra]. destruct (Rlt_dec 1 1.5); [|lra]. destruct (Rlt_dec 2 1.5); [lra|]. unfold nthR. cbn [Nat.sub nth coord fst snd].
  unfold interp2. destruct (Rlt_dec 1.5 1); [lra|]. destruct (Rlt_dec 2 1.5); [lra|]. destruct (Rle_dec 2 1.5); [lra|]. f_equal; lra.
Qed.
(** half a circle of radius 2 in 2 PI time units; halfway at the top *)
Example C65_case_circle : exists tr, new_circle 0 2 0 0 0 180 None None None None None None = TOk tr /\ sensible None None None None None /\ position tr PI = (0, 2).
Proof.
  assert (Len : Rabs (radians (180 - 0)) * 2 = 2 * PI). { unfold radians. replace ((180 - 0) * PI / 180) with PI by field. rewrite Rabs_pos_eq; [ring|]. pose proof PI_RGT_0; lra. }
  pose proof PI_RGT_0 as PP. unfold new_circle. cbn zeta. rewrite Len. unfold new_movement, is0, dflt, inv2. cbn [orb]. destruct (Rlt_dec (2 * PI) _); [lra|]. destruct (Rlt_dec _ 0); [lra|]. destruct (Req_EM_T 1 0); [lra|].
  eexists. split; [reflexivity|]. split; [repeat split; cbn; lra|]. unfold position. cbn [at_t dflt]. unfold circle_length. cbn zeta. cbn [mv_t over].
  destruct (Rlt_dec PI 0); [lra|]. destruct (Rlt_dec _ PI); [lra|]. unfold l_at_t. cbn [mv_l0 mv_l mv_l1 mv_t0 mv_tv mv_t1 mv_t mv_v0 mv_vmax mv_acc mv_dec over]. destruct (Rlt_dec (PI - 0) 0); [lra|]. destruct (Rlt_dec _ (PI - 0)); [lra|].
  unfold interp2. destruct (Rlt_dec _ 0); [lra|]. destruct (Rlt_dec (2 * PI) _); [lra|]. destruct (Rle_dec (2 * PI) _); [lra|].
  replace (radians (0 + (180 - 0) * (1 * (PI - 0) - 0) / (2 * PI - 0))) with (PI / 2) by (unfold radians; field; lra). rewrite cos_PI2, sin_PI2. f_equal; ring.
Qed.
(** in_trajectory holds from the start up to and including the moment of arrival, and at no other time *)
Theorem C65_in_trajectory : forall tr t, 0 <= duration tr -> (in_trajectory tr (start tr) /\ in_trajectory tr (start tr + duration tr)) /\ (in_trajectory tr t -> t <= start tr + duration tr /\ start tr <= t) /\
  (t < start tr \/ start tr + duration tr < t -> ~ in_trajectory tr t) /\ (start tr < t < start tr + duration tr -> in_trajectory tr t).
Proof. intros tr t D. unfold in_trajectory, stop. repeat split; intros; lra. Qed.
Print Assumptions C65_polygon.
Print Assumptions C65_spec_unique.
Print Assumptions C65_polygon_ends.
Print Assumptions C65_polygon_no_jumps.
Print Assumptions C65_circle.
Print Assumptions C65_circle_radius.
Print Assumptions C65_circle_ends.
Print Assumptions C65_circle_no_jumps.
Print Assumptions C65_polygon_length_partial.
Print Assumptions C65_polygon_length_refuted.
Print Assumptions C65_circle_length_raises.
Print Assumptions C65_circle_length_refuted.
Print Assumptions C65_standstill.
Print Assumptions C65_in_trajectory.
