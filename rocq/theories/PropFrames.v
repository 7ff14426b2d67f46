(** C84: an animated image shows the frame that belongs to the moment. *)
From Coq Require Import QArith Qround Lqa List Bool Arith ZArith Lia.
From Verif Require Import Base Frames.
Import ListNotations.
Open Scope Q_scope.

(** ** What the documentation says *)
(** the time in the video at which frame i ends *)
Fixpoint until (ds : list Q) (i : nat) : Q := match i with O => nth 0 ds 0 | S j => until ds j + nth i ds 0 end.
Definition total (ds : list Q) : Q := until ds (length ds - 1).
(** frame i belongs to time v of the video: those before it have ended, and it has not (the last one does not end) *)
Definition belongs (ds : list Q) (v : Q) (i : nat) : Prop :=
  (i < length ds)%nat /\ ((S i < length ds)%nat -> v <= until ds i) /\ forall k, (k < i)%nat -> until ds k < v.
(** an image with at least two frames; the part from .. to of it *)
Definition to_time (ds : list Q) (to : xq) : Q := match to with PInf => total ds | Fin x => x end.
Definition part (ds : list Q) (from : Q) (to : xq) : Prop := (2 <= length ds)%nat /\ 0 <= from /\ from < to_time ds to /\ to_time ds to <= total ds.
(** frame i is chosen; its picture is a copy of it, or the file if it is the first *)
Definition picture (i : nat) : pic := match i with O => File | _ => Copy i end.
Definition chooses (g : got) (i : nat) : Prop := g = Got (Pic (picture i)) (Z.of_nat i).

(** ** Reading *)
Lemma loop_ok : forall n ds k acc, (k < length ds)%nat -> (length ds - k <= n)%nat ->
  frames_loop n (mkF ds k) (until ds k) acc =
  (mkF ds (length ds - 1), total ds, acc ++ map (fun i => (Copy i, Fin (until ds i))) (seq (S k) (length ds - 1 - k))).
Proof.
  induction n as [|n IH]; intros ds k acc K N; [lia|]. cbn [frames_loop f_at f_dur]. destruct (Nat.ltb_spec (S k) (length ds)) as [L|L].
  - change (until ds k + info {| f_dur := ds; f_at := S k |}) with (until ds (S k)). rewrite IH by lia. f_equal. rewrite <- app_assoc. f_equal.
    replace (length ds - 1 - k)%nat with (S (length ds - 1 - S k)) by lia. reflexivity.
  - assert (E : k = (length ds - 1)%nat) by lia. unfold total. rewrite <- E. replace (k - k)%nat with 0%nat by lia. cbn. rewrite app_nil_r. reflexivity.
Qed.
Lemma last_inf_app : forall l p e, last_inf (l ++ [(p, e)]) = l ++ [(p, PInf)].
Proof. induction l as [|(p0, e0) l IH]; intros p e; [reflexivity|]. cbn [app]. specialize (IH p e). destruct (l ++ [(p, e)]) eqn:X; [destruct l; discriminate|]. cbn [last_inf]. rewrite <- IH. destruct p1. reflexivity. Qed.
Definition end_of (ds : list Q) (i : nat) : xq := if (S i <? length ds)%nat then Fin (until ds i) else PInf.
Lemma load_ok : forall ds, (2 <= length ds)%nat ->
  load ds = mkI (map (fun i => (picture i, end_of ds i)) (seq 0 (length ds))) (total ds) (mkF ds (length ds - 1)).
Proof.
  intros ds L. unfold load. destruct (Nat.leb_spec (length ds) 1) as [X|_]; [lia|]. cbv zeta. change (info (mkF ds 0)) with (until ds 0).
  rewrite loop_ok by lia. f_equal. replace (length ds) with (S (S (length ds - 2))) at 1 by lia. replace (length ds) with (S (S (length ds - 2))) at 2 by lia.
  replace (S (S (length ds - 2)) - 1 - 0)%nat with (S (length ds - 2)) by lia. rewrite (seq_S (length ds - 2) 1), (seq_S (S (length ds - 2)) 0). cbn [seq]. rewrite !map_app. cbn [map app].
  rewrite app_comm_cons. rewrite last_inf_app. cbn [app]. f_equal; [f_equal; unfold end_of; destruct (Nat.ltb_spec 1 (length ds)); [reflexivity | lia]|].
  f_equal.
  - apply map_ext_in. intros i I. apply in_seq in I. unfold end_of. destruct (Nat.ltb_spec (S i) (length ds)); [|lia]. destruct i; [lia | reflexivity].
  - unfold end_of. destruct (Nat.ltb_spec (S (0 + S (length ds - 2))) (length ds)); [lia|]. reflexivity.
Qed.

(** ** Choosing *)
Lemma xleb_ext : forall a b e, a == b -> xleb (Fin a) e = xleb (Fin b) e.
Proof. intros a b [q|] E; [|reflexivity]. destruct (xleb (Fin a) (Fin q)) eqn:A, (xleb (Fin b) (Fin q)) eqn:B; auto.
  - apply xleb_iff in A. apply xleb_false_iff in B. cbn in *. lra.
  - apply xleb_iff in B. apply xleb_false_iff in A. cbn in *. lra. Qed.
Lemma qle_ext : forall a b c d, a == b -> c == d -> Qle_bool a c = Qle_bool b d.
Proof. intros a b c d E F. destruct (Qle_bool a c) eqn:A, (Qle_bool b d) eqn:B; auto; [apply Qle_bool_iff in A; rewrite E, F, <- Qle_bool_iff in A | apply Qle_bool_iff in B; rewrite <- E, <- F, <- Qle_bool_iff in B]; congruence. Qed.
Lemma pick_ext : forall l a b i, a == b -> pick a i l = pick b i l.
Proof. induction l as [|(p, e) l IH]; intros a b i E; [reflexivity|]. cbn [pick]. rewrite (xleb_ext a b e E), (IH a b _ E). reflexivity. Qed.
Lemma pick_ok : forall ds v n k, (k + n = length ds)%nat -> (0 < n)%nat -> (forall j, (j < k)%nat -> until ds j < v) ->
  exists i, belongs ds v i /\ pick v (Z.of_nat k) (map (fun i => (picture i, end_of ds i)) (seq k n)) = Got (Pic (picture i)) (Z.of_nat i).
Proof.
  induction n as [|n IH]; intros k L N B; [lia|]. cbn [seq map pick]. destruct (xleb (Fin v) (end_of ds k)) eqn:E.
  - exists k. split; [|reflexivity]. split; [lia|]. split; [|auto]. intros K. apply xleb_iff in E. unfold end_of in E. destruct (Nat.ltb_spec (S k) (length ds)); [exact E | lia].
  - apply xleb_false_iff in E. unfold end_of in E. destruct (Nat.ltb_spec (S k) (length ds)) as [K|K]; [|destruct E].
    replace (Z.of_nat k + 1)%Z with (Z.of_nat (S k)) by lia. apply IH; try lia. intros j J. destruct (Nat.eq_dec j k) as [->|]; [exact E | apply B; lia].
Qed.
Lemma pick_load : forall ds v, (2 <= length ds)%nat -> exists i, belongs ds v i /\ chooses (pick v 0 (i_images (load ds))) i.
Proof. intros ds v L. rewrite load_ok by auto. cbn [i_images]. apply (pick_ok ds v (length ds) 0); lia. Qed.
(** one frame only *)
Lemma belongs_unique : forall ds v i j, belongs ds v i -> belongs ds v j -> i = j.
Proof.
  assert (W : forall ds v i j, belongs ds v i -> belongs ds v j -> ~ (i < j)%nat).
  { intros ds v i j (A & B & C) (A' & B' & C') L. specialize (C' i L). assert (X : v <= until ds i) by (apply B; lia). lra. }
  intros ds v i j I J. pose proof (W _ _ _ _ I J). pose proof (W _ _ _ _ J I). lia.
Qed.
Lemma floor_small : forall t m, 0 <= t -> t < m -> Qfloor (t / m) = 0%Z.
Proof.
  intros t m A B. assert (M : 0 < m) by lra.
  assert (X : (0 <= Qfloor (t / m))%Z). { replace 0%Z with (Qfloor 0) by reflexivity. apply Qfloor_resp_le. apply Qle_shift_div_l; lra. }
  assert (Y : (Qfloor (t / m) < 1)%Z). { rewrite Zlt_Qlt. eapply Qle_lt_trans; [apply Qfloor_le|]. apply Qlt_shift_div_r; [auto|]. change (inject_Z 1) with 1. lra. }
  lia.
Qed.
Lemma qmod_small : forall t m, 0 <= t -> t < m -> qmod t m == t.
Proof. intros t m A B. unfold qmod. rewrite floor_small by auto. cbn. ring. Qed.
Lemma floor_add : forall x k, Qfloor (x + inject_Z k) = (Qfloor x + k)%Z.
Proof.
  intros x k. pose proof (Qfloor_le x) as A. pose proof (Qlt_floor x) as B. pose proof (Qfloor_le (x + inject_Z k)) as C. pose proof (Qlt_floor (x + inject_Z k)) as D.
  rewrite inject_Z_plus in B, D. change (inject_Z 1) with 1 in B, D.
  assert (H1 : (Qfloor (x + inject_Z k) < Qfloor x + k + 1)%Z) by (rewrite Zlt_Qlt, !inject_Z_plus; change (inject_Z 1) with 1; lra).
  assert (H2 : (Qfloor x + k < Qfloor (x + inject_Z k) + 1)%Z) by (rewrite Zlt_Qlt, !inject_Z_plus; change (inject_Z 1) with 1; lra). lia.
Qed.
Lemma qmod_add : forall t m k, 0 < m -> qmod (t + inject_Z k * m) m == qmod t m.
Proof.
  intros t m k M. unfold qmod. assert (E : (t + inject_Z k * m) / m == t / m + inject_Z k) by (field; lra).
  rewrite (Qfloor_comp _ _ E), floor_add, inject_Z_plus. ring.
Qed.
Lemma qmod_range : forall t m, 0 < m -> 0 <= qmod t m /\ qmod t m < m.
Proof.
  intros t m M. unfold qmod. pose proof (Qfloor_le (t / m)) as A. pose proof (Qlt_floor (t / m)) as B. rewrite inject_Z_plus in B. change (inject_Z 1) with 1 in B.
  assert (E : t == m * (t / m)) by (field; lra). set (f := inject_Z (Qfloor (t / m))) in *. set (y := t / m) in *. rewrite E. split; nra.
Qed.
(** what get_image does in a part *)
Definition interval (ds : list Q) (pp : bool) (from : Q) (to : xq) : Q := if pp then 2 * (to_time ds to - from) else to_time ds to - from.
Definition video (ds : list Q) (pp : bool) (from : Q) (to : xq) (u : Q) : Q :=
  if pp then (if Qle_bool u (interval ds pp from to / 2) then from + u else from + interval ds pp from to - u) else from + u.
Lemma get_ok : forall ds t r pp from to, part ds from to -> 0 <= t -> (r = true \/ t <= interval ds pp from to) ->
  get_image (load ds) t r pp from to = pick (video ds pp from to (qmod t (interval ds pp from to))) 0 (i_images (load ds)).
Proof.
  intros ds t r pp from to (L & F & W & T) P R. unfold get_image. rewrite load_ok by auto. cbn [i_images i_duration].
  destruct (map _ (seq 0 (length ds))) as [|(p0, e0) [|x l]] eqn:M; [apply (f_equal (@length _)) in M; rewrite map_length, seq_length in M; cbn in M; lia.. |].
  assert (X1 : Qltb t 0 = false) by (apply Qltb_false_iff; auto). rewrite X1. unfold to_time, interval, video in *.
  assert (X2 : Qle_bool 0 from = true) by (apply Qle_bool_iff; auto). rewrite X2.
  assert (X3 : Qltb from match to with PInf => total ds | Fin x => x end = true) by (apply Qltb_iff; destruct to; auto).
  assert (X4 : Qltb (total ds) match to with PInf => total ds | Fin x => x end = false) by (apply Qltb_false_iff; destruct to; auto).
  cbn [andb negb]. destruct to; rewrite X3, X4; cbn [negb];
    (assert (X5 : negb r && Qltb (interval ds pp from ltac:(first [exact (Fin q) | exact PInf])) t = false) by (destruct R as [->|R]; [reflexivity | apply andb_false_iff; right; apply Qltb_false_iff; exact R]));
    unfold interval, to_time in X5; rewrite X5; reflexivity.
Qed.

(** ** Theorems *)
(** forward: after t seconds of playing, the frame at from + t of the video *)
Theorem C84_forward : forall ds t r from to, part ds from to -> 0 <= t -> t < to_time ds to - from ->
  exists i, belongs ds (from + t) i /\ chooses (get_image (load ds) t r false from to) i.
Proof.
  intros ds t r from to P A B. destruct (pick_load ds (from + t) (proj1 P)) as (i & I & C). exists i. split; auto.
  rewrite get_ok; auto; [|right; cbn; lra]. unfold video, interval. unfold chooses. rewrite <- C. apply pick_ext. rewrite qmod_small by auto. reflexivity.
Qed.
(** forward and back *)
Theorem C84_pingpong : forall ds t r from to, part ds from to -> 0 <= t ->
  (t <= to_time ds to - from -> exists i, belongs ds (from + t) i /\ chooses (get_image (load ds) t r true from to) i) /\
  (to_time ds to - from <= t -> t < 2 * (to_time ds to - from) ->
    exists i, belongs ds (to_time ds to - (t - (to_time ds to - from))) i /\ chooses (get_image (load ds) t r true from to) i).
Proof.
  intros ds t r from to P A. pose proof P as (_ & _ & W & _). set (w := to_time ds to - from) in *.
  assert (G : t < 2 * w -> get_image (load ds) t r true from to = pick (video ds true from to (qmod t (2 * w))) 0 (i_images (load ds))).
  { intros B. rewrite get_ok; auto. right. cbn. fold w. lra. }
  assert (V : t < 2 * w -> qmod t (2 * w) == t) by (intros; apply qmod_small; auto).
  split; intros B; [|intros B'].
  - destruct (pick_load ds (from + t) (proj1 P)) as (i & I & C). exists i. split; auto. rewrite G by (unfold w in *; lra). unfold chooses. rewrite <- C. apply pick_ext.
    unfold video, interval. fold w. assert (X : Qle_bool (qmod t (2 * w)) (2 * w / 2) = true). { apply Qle_bool_iff. rewrite V by (unfold w in *; lra). apply Qle_shift_div_l; lra. }
    rewrite X. rewrite V by (unfold w in *; lra). reflexivity.
  - destruct (pick_load ds (to_time ds to - (t - w)) (proj1 P)) as (i & I & C). exists i. split; auto. rewrite G by auto. unfold chooses. rewrite <- C. apply pick_ext.
    unfold video, interval. fold w. destruct (Qle_bool (qmod t (2 * w)) (2 * w / 2)) eqn:X.
    + apply Qle_bool_iff in X. rewrite V in X by auto. assert (E : 2 * w / 2 == w) by field. rewrite E in X. rewrite V by auto. unfold w in *. lra.
    + rewrite V by auto. unfold w. ring.
Qed.
(** repeated: the same again after each round *)
Theorem C84_repeat : forall ds t k pp from to, part ds from to -> 0 <= t ->
  get_image (load ds) (t + inject_Z (Z.of_nat k) * interval ds pp from to) true pp from to = get_image (load ds) t true pp from to.
Proof.
  intros ds t k pp from to P A. pose proof P as (_ & _ & W & _). assert (M : 0 < interval ds pp from to) by (unfold interval; destruct pp; lra).
  assert (K : 0 <= inject_Z (Z.of_nat k)) by (change 0 with (inject_Z 0); rewrite <- Zle_Qle; lia).
  rewrite !get_ok; auto; [|nra]. apply pick_ext. pose proof (qmod_add t (interval ds pp from to) (Z.of_nat k) M) as E. unfold video. destruct pp; [|rewrite E; reflexivity].
  rewrite (qle_ext _ _ _ _ E (Qeq_refl _)). destruct (Qle_bool _ _); rewrite E; reflexivity.
Qed.
(** nothing before the start, and nothing after the end if it is not repeated *)
Theorem C84_outside : forall ds t r pp from to, part ds from to ->
  (t < 0 -> exists id, get_image (load ds) t r pp from to = Got Dummy id) /\
  (interval ds pp from to < t -> r = false -> exists id, get_image (load ds) t r pp from to = Got Dummy id).
Proof.
  intros ds t r pp from to (L & F & W & T). unfold get_image. rewrite load_ok by auto. cbn [i_images i_duration].
  destruct (map _ (seq 0 (length ds))) as [|(p0, e0) [|x l]] eqn:M; [apply (f_equal (@length _)) in M; rewrite map_length, seq_length in M; cbn in M; lia.. |].
  split; [intros H; apply Qltb_iff in H; rewrite H; eauto|]. intros H ->. destruct (Qltb t 0); [eauto|]. unfold interval, to_time in *.
  assert (X2 : Qle_bool 0 from = true) by (apply Qle_bool_iff; auto). rewrite X2.
  assert (X3 : Qltb from match to with PInf => total ds | Fin x => x end = true) by (apply Qltb_iff; destruct to; auto).
  assert (X4 : Qltb (total ds) match to with PInf => total ds | Fin x => x end = false) by (apply Qltb_false_iff; destruct to; auto).
  cbn [andb negb]. destruct to; rewrite X3, X4; cbn [negb]; apply Qltb_iff in H; rewrite H; eauto.
Qed.
(** a part that is not within the video is refused *)
Theorem C84_invalid : forall ds t r pp from to, (2 <= length ds)%nat -> 0 <= t -> from < 0 \/ to_time ds to <= from \/ total ds < to_time ds to ->
  get_image (load ds) t r pp from to = Raises.
Proof.
  intros ds t r pp from to L P H. unfold get_image. rewrite load_ok by auto. cbn [i_images i_duration].
  destruct (map _ (seq 0 (length ds))) as [|(p0, e0) [|x l]] eqn:M; [apply (f_equal (@length _)) in M; rewrite map_length, seq_length in M; cbn in M; lia.. |].
  assert (X1 : Qltb t 0 = false) by (apply Qltb_false_iff; auto). rewrite X1. cbv zeta. fold (to_time ds to).
  destruct (Qle_bool 0 from) eqn:A; [|reflexivity]. destruct (Qltb from (to_time ds to)) eqn:B; [|reflexivity]. cbn [negb andb].
  apply Qle_bool_iff in A. apply Qltb_iff in B. assert (C : Qltb (total ds) (to_time ds to) = true) by (apply Qltb_iff; lra). rewrite C. reflexivity.
Qed.
(** a frame that is chosen is seen, but for the first *)
Theorem C84_seen : forall ds i, (2 <= length ds)%nat -> (0 < i < length ds)%nat -> seen (load ds) (picture i) = i.
Proof. intros ds [|i] L I; [lia | reflexivity]. Qed.
(** an image with one frame is always shown *)
Theorem C84_single : forall d t r pp from to, exists id, get_image (load [d]) t r pp from to = Got (Pic (Copy 0)) id /\ seen (load [d]) (Copy 0) = 0%nat.
Proof. intros. eexists. split; reflexivity. Qed.
(** the number of a picture of a repeated animation tells which it is *)
Definition numbered (x : shown) (id : Z) : Prop := (id = (-1)%Z /\ x = Dummy) \/ exists i, id = Z.of_nat i /\ x = Pic (picture i).
Lemma repeat_numbered : forall ds t pp from to, part ds from to -> exists x id, get_image (load ds) t true pp from to = Got x id /\ numbered x id.
Proof.
  intros ds t pp from to P. destruct (Qlt_le_dec t 0) as [N|N].
  - exists Dummy, (-1)%Z. split; [|left; auto]. destruct P as (L & _). unfold get_image. rewrite load_ok by auto. cbn [i_images].
    destruct (map _ (seq 0 (length ds))) as [|(p0, e0) [|x l]] eqn:M; [apply (f_equal (@length _)) in M; rewrite map_length, seq_length in M; cbn in M; lia.. |].
    apply Qltb_iff in N. rewrite N. reflexivity.
  - rewrite get_ok; auto. destruct (pick_load ds (video ds pp from to (qmod t (interval ds pp from to))) (proj1 P)) as (i & _ & C). unfold chooses in C. rewrite C.
    do 2 eexists. split; [reflexivity|]. right. eauto.
Qed.
(** what is on the screen is what was chosen last, whenever and however often it was shown before *)
Theorem C84_screen : forall ds pp from to ts t, part ds from to -> exists x id, get_image (load ds) t true pp from to = Got x id /\ screen (load ds) true pp from to (ts ++ [t]) = Some (id, x).
Proof.
  intros ds pp from to ts t P. unfold screen. rewrite fold_left_app. cbn [fold_left].
  assert (I : forall prev, (forall id x, prev = Some (id, x) -> numbered x id) -> forall id x, fold_left (fun prev t => display prev (get_image (load ds) t true pp from to)) ts prev = Some (id, x) -> numbered x id).
  { induction ts as [|t0 ts IH]; intros prev H; [exact H|]. cbn [fold_left]. apply IH. intros id x. destruct (repeat_numbered ds t0 pp from to P) as (y & jd & -> & N). cbn [display].
    destruct prev as [(id0, z)|]; [destruct (Z.eqb id0 jd)|]; intros E; auto; injection E as <- <-; exact N. }
  specialize (I None ltac:(discriminate)). destruct (repeat_numbered ds t pp from to P) as (x & id & E & N). rewrite E. exists x, id. split; auto. cbn [display].
  destruct (fold_left _ ts None) as [(id0, y)|]; [|reflexivity]. specialize (I id0 y eq_refl). destruct (Z.eqb_spec id0 id) as [->|]; [|reflexivity]. f_equal. f_equal.
  destruct I as [(A & ->)|(i & A & ->)], N as [(B & ->)|(j & B & ->)]; auto; try lia. f_equal. f_equal. lia.
Qed.
(** instead of the first frame, the last one is seen *)
Theorem C84_first_refuted : forall ds, (2 <= length ds)%nat -> 0 <= nth 0 ds 0 -> 0 < total ds ->
  belongs ds 0 0 /\ exists p id, get_image (load ds) 0 false false 0 PInf = Got (Pic p) id /\ seen (load ds) p = (length ds - 1)%nat.
Proof.
  intros ds L D T. assert (B : belongs ds 0 0) by (split; [lia|]; split; [auto | intros; lia]). split; auto.
  assert (P : part ds 0 PInf) by (repeat split; cbn; auto; lra).
  destruct (C84_forward ds 0 false 0 PInf P) as (i & I & C); [lra | cbn; lra|].
  assert (B' : belongs ds (0 + 0) 0) by (destruct B as (b1 & b2 & b3); repeat split; auto; intros; lia).
  rewrite (belongs_unique _ _ _ _ I B') in C. exists File, 0%Z. split; [exact C|]. rewrite load_ok by auto. reflexivity.
Qed.
(** at the end of an animation that is not repeated its first frame flashes: just before it is the second, just after nothing *)
Theorem C84_end_refuted : exists ds, part ds 0 PInf /\ interval ds false 0 PInf == 2 /\ chooses (get_image (load ds) (199 # 100) false false 0 PInf) 1 /\
  chooses (get_image (load ds) 2 false false 0 PInf) 0 /\ exists id, get_image (load ds) (201 # 100) false false 0 PInf = Got Dummy id.
Proof. exists [1; 1]. split; [repeat split; cbn; try lia; try lra; discriminate|]. split; [reflexivity|]. split; [vm_compute; reflexivity|]. split; [vm_compute; reflexivity|]. eexists. vm_compute. reflexivity. Qed.
(** an animation forward and back stays on the screen when it is over, as nothing has the number of the first frame *)
Theorem C84_stays_refuted : exists ds t0, part ds 0 PInf /\ forall ts, Forall (fun t => interval ds true 0 PInf < t) ts ->
  (forall t, In t ts -> exists id, get_image (load ds) t false true 0 PInf = Got Dummy id) /\ screen (load ds) false true 0 PInf (t0 :: ts) = Some (0%Z, Pic File).
Proof.
  exists [1; 1], (39 # 10). assert (P : part [1; 1] 0 PInf) by (repeat split; cbn; try lia; try lra; discriminate). split; auto. intros ts H.
  split; [intros t I; apply (proj2 (C84_outside [1; 1] t false true 0 PInf P)); auto; rewrite Forall_forall in H; auto|].
  unfold screen. cbn [fold_left]. replace (display None (get_image (load [1; 1]) (39 # 10) false true 0 PInf)) with (Some (0%Z, Pic File)) by (vm_compute; reflexivity).
  induction ts as [|t ts IH]; [reflexivity|]. inversion H; subst. cbn [fold_left].
  assert (E : get_image (load [1; 1]) t false true 0 PInf = Got Dummy 0).
  { unfold get_image. assert (N : Qltb t 0 = false) by (apply Qltb_false_iff; cbn in H2; lra). assert (M : Qltb 4 t = true) by (apply Qltb_iff; cbn in H2; lra).
    cbn. rewrite N. unfold Qltb in M |- *. cbn in M |- *. apply negb_true_iff in M. 
    match goal with |- context [Qle_bool t ?x] => assert (Y : Qle_bool t x = false) by (rewrite <- M; apply qle_ext; reflexivity) end. rewrite Y. reflexivity. }
  rewrite E. cbn. apply IH; auto.
Qed.
(** three frames of 1, 2 and 1 seconds, from 0.5 to 3.5 *)
Example C84_case : let ds := [1; 2; 1] in part ds (1 # 2) (Fin (7 # 2)) /\ belongs ds ((1 # 2) + 1) 1 /\ chooses (get_image (load ds) 1 true false (1 # 2) (Fin (7 # 2))) 1 /\
  chooses (get_image (load ds) 4 true true (1 # 2) (Fin (7 # 2))) 1 /\ chooses (get_image (load ds) (11 # 4) false false (1 # 2) (Fin (7 # 2))) 2.
Proof.
  cbv zeta. split; [repeat split; cbn; try lia; try lra; discriminate|]. split; [split; [cbn; lia|]; split; [intros _; vm_compute; discriminate | intros k K; destruct k; [vm_compute; reflexivity | lia]]|].
  repeat split; vm_compute; reflexivity.
Qed.
Print Assumptions C84_forward.
Print Assumptions C84_pingpong.
Print Assumptions C84_repeat.
Print Assumptions C84_outside.
Print Assumptions C84_screen.
Print Assumptions C84_first_refuted.
Print Assumptions C84_end_refuted.
Print Assumptions C84_stays_refuted.
Print Assumptions C84_invalid.
