(** C85: an animated PNG video contains all its pictures, in order. *)
From Coq Require Import ZArith QArith Qround Bool String Ascii List Lia.
From Verif Require Import Apng.
Import ListNotations.
Open Scope Z_scope.

(** ** The PNG and APNG formats *)
(** a file is a signature and a sequence of chunks: length, type (4 bytes), contents, crc *)
Definition chunk := (bytes * bytes)%type.
Definition encode (crc : bytes -> Z) (c : chunk) : bytes := be4 (Z.of_nat (length (snd c))) ++ fst c ++ snd c ++ be4 (crc (fst c ++ snd c) mod 4294967296).
Definition written (crc : bytes -> Z) (cs : list chunk) : bytes := [137; 80; 78; 71; 13; 10; 26; 10] ++ List.concat (map (encode crc) cs).
Definition is (s : string) (c : chunk) : bool := same (fst c) (tag s).
(** how a player finds the frames: fcTL starts one, IDAT and fdAT (after a sequence number) contain its image data; a frame is its control data and its image data *)
Definition add (d : bytes) (fs : list (bytes * bytes)) : list (bytes * bytes) := match fs with [] => [] | (k, x) :: r => (k, x ++ d) :: r end.
Definition play1 (fs : list (bytes * bytes)) (c : chunk) : list (bytes * bytes) :=
  if is "fcTL" c then (skipn 4 (snd c), []) :: fs
  else if is "IDAT" c then add (snd c) fs
  else if is "fdAT" c then add (skipn 4 (snd c)) fs
  else fs.
Definition played (cs : list chunk) : list (bytes * bytes) := rev (fold_left play1 cs []).
(** the sequence numbers in the file *)
Definition numbers (cs : list chunk) : list (option Z) :=
  map (fun c => unpack4 (firstn 4 (snd c))) (filter (fun c => is "fcTL" c || is "fdAT" c) cs).

(** ** A picture in PNG format (not animated): header with width and height, other chunks, IEND *)
Record image := mkImg { g_w : Z; g_h : Z; g_rest : bytes; g_body : list chunk }.
Definition header (g : image) : chunk := (tag "IHDR", be4 (g_w g) ++ be4 (g_h g) ++ g_rest g).
Definition trailer : chunk := (tag "IEND", []).
Definition chunks_of (g : image) : list chunk := header g :: g_body g ++ [trailer].
Definition idats (g : image) : list chunk := filter (is "IDAT") (g_body g).
(** its image data *)
Definition data (g : image) : bytes := List.concat (map snd (idats g)).
Definition small (c : chunk) : Prop := length (fst c) = 4%nat /\ Z.of_nat (length (snd c)) + 4 < 4294967296.
(** chunks as they can be read back *)
Definition proper (c : chunk) : Prop := length (fst c) = 4%nat /\ Z.of_nat (length (snd c)) < 4294967296.
Definition plain (g : image) : Prop :=
  0 <= g_w g < 4294967296 /\ 0 <= g_h g < 4294967296 /\ length (g_rest g) = 5%nat /\
  Forall (fun c => small c /\ among (fst c) ["IHDR"; "IEND"; "acTL"; "fcTL"; "fdAT"]%string = false) (g_body g).
(** the control data of a frame: size, place, duration 1/fps, and how it replaces the previous one *)
Definition control_data (fps : Z) (g : image) : bytes := be4 (g_w g) ++ be4 (g_h g) ++ be4 0 ++ be4 0 ++ [0; 1] ++ [fps / 256; fps mod 256] ++ [1] ++ [0].

(** ** Bytes *)
Lemma same_iff : forall a b, same a b = true <-> a = b.
Proof.
  induction a as [|x a IH]; intros [|y b]; cbn; split; intros H; try discriminate; auto.
  - apply andb_true_iff in H. destruct H as (A & B). apply Z.eqb_eq in A. apply IH in B. congruence.
  - injection H as -> ->. rewrite Z.eqb_refl. apply IH. auto.
Qed.
Lemma be4_length : forall x, length (be4 x) = 4%nat. Proof. reflexivity. Qed.
Lemma unpack_be4 : forall x, 0 <= x < 4294967296 -> unpack4 (be4 x) = Some x.
Proof. intros x H. unfold unpack4, be4. f_equal. Z.to_euclidean_division_equations; lia. Qed.
Lemma pack4_ok : forall x, 0 <= x < 4294967296 -> pack4 x = Some (be4 x).
Proof. intros x H. unfold pack4. replace (0 <=? x) with true by (symmetry; apply Z.leb_le; lia). replace (x <? 4294967296) with true by (symmetry; apply Z.ltb_lt; lia). reflexivity. Qed.
Section S.
Variable crc : bytes -> Z.
Notation enc := (encode crc).
Definition raw (c : chunk) : bytes * bytes := (fst c, enc c).
Lemma enc_length : forall c, length (fst c) = 4%nat -> length (enc c) = (length (snd c) + 12)%nat.
Proof. intros (t, d) H. cbn in H. unfold encode. rewrite !app_length. cbn [length be4 fst snd]. lia. Qed.
Lemma firstn_app_at : forall A (a b : list A) n, n = length a -> firstn n (a ++ b) = a.
Proof. intros A a b n ->. rewrite firstn_app, Nat.sub_diag, firstn_all. cbn. apply app_nil_r. Qed.
Lemma skipn_app_at : forall A (a b : list A) n, n = length a -> skipn n (a ++ b) = b.
Proof. intros A a b n ->. rewrite skipn_app, Nat.sub_diag, skipn_all. reflexivity. Qed.
Lemma parse_ok : forall cs n, Forall proper cs -> (length cs <= n)%nat -> parse n (List.concat (map enc cs)) = Some (map raw cs).
Proof.
  induction cs as [|(t, d) cs IH]; intros n F L; [destruct n; reflexivity|]. inversion F as [|? ? (T & D) F']; subst. cbn [fst snd] in *. destruct n as [|n]; [cbn in L; lia|].
  cbn [map List.concat]. pose proof (enc_length (t, d) T) as EL. cbn [snd] in EL. remember (enc (t, d)) as e eqn:E. destruct e as [|x e]; [cbn in EL; lia|].
  assert (H4 : firstn 4 ((x :: e) ++ List.concat (map enc cs)) = be4 (Z.of_nat (length d))).
  { rewrite E. unfold encode. cbn [fst snd]. rewrite <- !app_assoc. apply firstn_app_at. reflexivity. }
  assert (T4 : firstn 4 (skipn 4 ((x :: e) ++ List.concat (map enc cs))) = t).
  { rewrite E. unfold encode. cbn [fst snd]. rewrite <- !app_assoc. rewrite skipn_app_at by reflexivity. apply firstn_app_at. auto. }
  assert (P : parse (S n) ((x :: e) ++ List.concat (map enc cs)) =
    (len <- unpack4 (firstn 4 ((x :: e) ++ List.concat (map enc cs))) ;; let k := Z.to_nat (len + 12) in
     rest <- parse n (skipn k ((x :: e) ++ List.concat (map enc cs))) ;; Some ((firstn 4 (skipn 4 ((x :: e) ++ List.concat (map enc cs))), firstn k ((x :: e) ++ List.concat (map enc cs))) :: rest))) by reflexivity.
  rewrite P, H4, T4, unpack_be4 by lia. cbn [obind]. cbv zeta. replace (Z.to_nat (Z.of_nat (length d) + 12)) with (length (x :: e)) by lia.
  rewrite skipn_app_at, firstn_app_at by reflexivity. rewrite IH; [|auto | cbn in L; lia]. cbn [obind map]. unfold raw at 2. cbn [fst]. rewrite <- E. reflexivity.
Qed.
Lemma concat_length_ge : forall cs, Forall proper cs -> (length cs <= length (List.concat (map enc cs)))%nat.
Proof. induction cs as [|c cs IH]; intros F; [auto|]. inversion F as [|? ? (T & _) F']; subst. cbn [map List.concat length]. rewrite app_length, enc_length by auto. specialize (IH F'). lia. Qed.
Lemma parse_written : forall cs, Forall proper cs -> parse_chunks (written crc cs) = Some (map raw cs).
Proof.
  intros cs F. unfold parse_chunks, written. cbn [app skipn]. apply parse_ok; auto. pose proof (concat_length_ge cs F). cbn [length]. lia.
Qed.
Lemma content_enc : forall c, length (fst c) = 4%nat -> content (enc c) = snd c.
Proof.
  intros (t, d) T. cbn [fst] in T. unfold content, encode. cbn [fst snd]. rewrite app_assoc. rewrite skipn_app_at by (rewrite app_length; cbn [length be4]; lia).
  rewrite app_length. cbn [length be4]. replace (length d + 4 - 4)%nat with (length d) by lia. apply firstn_app_at. reflexivity.
Qed.
Lemma make_ok : forall t d, Z.of_nat (length d) < 4294967296 -> make_chunk crc t d = Some (enc (tag t, d)).
Proof.
  intros t d H. unfold make_chunk. rewrite pack4_ok by lia. cbn [obind].
  assert (E : Z.land (crc (tag t ++ d)) 4294967295 = crc (tag t ++ d) mod 4294967296) by (change 4294967295 with (Z.ones 32); rewrite Z.land_ones by lia; reflexivity).
  rewrite E. pose proof (Z.mod_pos_bound (crc (tag t ++ d)) 4294967296 ltac:(lia)). rewrite pack4_ok by lia. cbn [obind]. unfold encode. cbn [fst snd]. rewrite <- !app_assoc. reflexivity.
Qed.

(** ** Reading a picture *)
Lemma small_chunks : forall g, plain g -> Forall small (chunks_of g).
Proof.
  intros g (W & H & R & B). unfold chunks_of. constructor; [split; [reflexivity|]; cbn [header snd]; rewrite !app_length, R; cbn; lia|].
  apply Forall_app. split; [eapply Forall_impl; [|exact B]; cbn; tauto | repeat constructor; cbn; lia].
Qed.
Lemma last_none : forall s l r, Forall (fun c => same (fst c) (tag s) = false) l -> fold_left (fun r (c : bytes * bytes) => if same (fst c) (tag s) then Some (snd c) else r) (map raw l) r = r.
Proof. intros s l. induction l as [|c l IH]; intros r F; [reflexivity|]. inversion F; subst. cbn [map fold_left raw fst]. rewrite H1. auto. Qed.
Lemma not_among : forall t l s, among t l = false -> In s l -> same t (tag s) = false.
Proof. intros t l s A I. unfold among in A. destruct (same t (tag s)) eqn:E; auto. assert (X : existsb (fun s => same t (tag s)) l = true) by (apply existsb_exists; eauto). congruence. Qed.
Definition png_of (g : image) : png := mkPng (Some (enc (header g))) (Some (enc trailer)) (Some (g_w g)) (Some (g_h g)) (map raw (chunks_of g)).
Lemma body_not : forall g s, plain g -> In s ["IHDR"; "IEND"; "acTL"; "fcTL"; "fdAT"]%string -> Forall (fun c => same (fst c) (tag s) = false) (g_body g).
Proof. intros g s (_ & _ & _ & B) I. eapply Forall_impl; [|exact B]. cbv beta. intros c (_ & A). eapply not_among; eauto. Qed.
Lemma from_ok : forall g, plain g -> from_bytes (written crc (chunks_of g)) = Some (png_of g).
Proof.
  intros g P. pose proof P as (W & H & R & B). unfold from_bytes. rewrite parse_written by (eapply Forall_impl; [|apply small_chunks; exact P]; unfold small, proper; intros; lia). cbn [obind].
  assert (LH : last_of "IHDR" (map raw (chunks_of g)) = Some (enc (header g))).
  { unfold last_of, chunks_of. cbn [map fold_left]. replace (same (fst (raw (header g))) (tag "IHDR")) with true by reflexivity. rewrite map_app, fold_left_app. rewrite (last_none "IHDR" (g_body g)) by (apply body_not; cbn; auto). reflexivity. }
  assert (LE : last_of "IEND" (map raw (chunks_of g)) = Some (enc trailer)).
  { unfold last_of, chunks_of. cbn [map fold_left]. rewrite map_app, fold_left_app. reflexivity. }
  cbv zeta. rewrite LH, LE. unfold png_of. remember (enc (header g)) as e eqn:E.
  assert (W4 : firstn 4 (skipn 8 e) = be4 (g_w g)) by (rewrite E; reflexivity). assert (H4 : firstn 4 (skipn 12 e) = be4 (g_h g)) by (rewrite E; reflexivity).
  destruct e as [|x e]; [discriminate W4|]. rewrite W4, H4, !unpack_be4 by auto. reflexivity.
Qed.

(** ** Writing *)
Definition others (l : list chunk) : list chunk := filter (fun c => negb (is "IDAT" c)) l.
Lemma concat_filter : forall f l, List.concat (map snd (filter (fun c => f (fst c)) (map raw l))) = List.concat (map enc (filter (fun c => f (fst c)) l)).
Proof. intros f l. induction l as [|c l IH]; [reflexivity|]. cbn [map filter raw fst]. destruct (f (fst c)); cbn [map List.concat snd]; rewrite IH; reflexivity. Qed.
Lemma first_ok : forall g, plain g -> first_chunks (map raw (chunks_of g)) = List.concat (map enc (others (g_body g) ++ idats g)).
Proof.
  intros g P. unfold first_chunks. rewrite (concat_filter (fun t => negb (among t ["IHDR"; "IEND"; "IDAT"]%string))), (concat_filter (fun t => same t (tag "IDAT"))).
  rewrite map_app, concat_app. unfold chunks_of. cbn [filter]. rewrite !filter_app. cbn [filter].
  replace (negb (among (fst (header g)) ["IHDR"; "IEND"; "IDAT"]%string)) with false by reflexivity. replace (same (fst (header g)) (tag "IDAT")) with false by reflexivity.
  replace (negb (among (fst trailer) ["IHDR"; "IEND"; "IDAT"]%string)) with false by reflexivity. replace (same (fst trailer) (tag "IDAT")) with false by reflexivity. rewrite !app_nil_r.
  f_equal. f_equal. f_equal. unfold others. apply filter_ext_in. intros c I. unfold among, existsb.
  pose proof (proj1 (Forall_forall _ _) (body_not g "IHDR" P ltac:(cbn; auto)) c I) as A. pose proof (proj1 (Forall_forall _ _) (body_not g "IEND" P ltac:(cbn; auto)) c I) as B. cbv beta in A, B. rewrite A, B.
  unfold is. rewrite orb_false_r. reflexivity.
Qed.
Fixpoint fd (q : Z) (l : list chunk) : list chunk := match l with [] => [] | c :: r => (tag "fdAT", be4 q ++ snd c) :: fd (q + 1) r end.
Definition extra (g : image) : list chunk := filter (fun c => negb (is "IDAT" c) && negb (among (fst c) before_idat)) (g_body g).
Lemma next_body : forall l out other q, Forall (fun c => small c /\ among (fst c) ["IHDR"; "IEND"; "acTL"; "fcTL"; "fdAT"]%string = false) l -> 0 <= q -> q + Z.of_nat (length (filter (is "IDAT") l)) <= 4294967296 ->
  forall r, next_chunks crc (map raw l ++ r) (out, other, q) = next_chunks crc r
    (out ++ List.concat (map enc (fd q (filter (is "IDAT") l))), other ++ List.concat (map enc (filter (fun c => negb (is "IDAT" c) && negb (among (fst c) before_idat)) l)), q + Z.of_nat (length (filter (is "IDAT") l))).
Proof.
  induction l as [|c l IH]; intros out other q F Q L r; [cbn; rewrite !app_nil_r, Z.add_0_r; reflexivity|]. inversion F as [|? ? ((T & D) & A) F']; subst.
  cbn [map app]. assert (X : among (fst c) ["IHDR"; "IEND"]%string = false) by (unfold among, existsb; rewrite (not_among _ _ "IHDR" A), (not_among _ _ "IEND" A) by (cbn; auto); reflexivity).
  destruct (is "IDAT" c) eqn:I.
  - assert (B : among (fst c) before_idat = false) by (unfold is in I; apply same_iff in I; rewrite I; reflexivity).
    cbn [filter] in L |- *. rewrite I in L |- *. cbn [negb andb length] in L |- *. cbn [next_chunks raw]. rewrite X, B. cbn [orb]. unfold is in I. rewrite I. rewrite pack4_ok by lia. cbn [obind].
    rewrite content_enc by auto. rewrite make_ok by (rewrite app_length, be4_length; unfold bytes, chunk in *; lia). cbn [obind]. rewrite IH by (auto; lia). cbn [fd map List.concat]. rewrite <- app_assoc. f_equal. f_equal. lia.
  - cbn [filter] in L |- *. rewrite I in L |- *. cbn [negb andb] in L |- *. cbn [next_chunks raw]. rewrite X. cbn [orb]. destruct (among (fst c) before_idat) eqn:B; cbn [negb].
    + apply IH; auto.
    + unfold is in I. rewrite I. rewrite IH by (auto; lia). cbn [map List.concat]. rewrite <- app_assoc. reflexivity.
Qed.
Variable fps : Z.
Hypothesis FPS : 0 <= fps < 65536.
Definition ctl (g : image) : control := mkK (g_w g) (g_h g) 0 0 1 fps 1 0.
Lemma control_ok : forall g, plain g -> control_bytes (ctl g) = Some (control_data fps g).
Proof.
  intros g (W & H & _). unfold control_bytes, ctl. cbn [k_w k_h k_x k_y k_delay k_den k_dispose k_blend]. rewrite !pack4_ok by lia. cbn [obind].
  unfold pack2 at 2. replace (0 <=? fps) with true by (symmetry; apply Z.leb_le; lia). replace (fps <? 65536) with true by (symmetry; apply Z.ltb_lt; lia). reflexivity.
Qed.
Fixpoint later (q : Z) (gs : list image) : list chunk :=
  match gs with [] => [] | g :: r => (tag "fcTL", be4 q ++ control_data fps g) :: fd (q + 1) (idats g) ++ later (q + 1 + Z.of_nat (length (idats g))) r end.
Fixpoint used (gs : list image) : Z := match gs with [] => 0 | g :: r => 1 + Z.of_nat (length (idats g)) + used r end.
Lemma used_nonneg : forall gs, 0 <= used gs. Proof. induction gs; cbn [used]; lia. Qed.
Lemma next_ok : forall gs out other q, Forall plain gs -> 0 <= q -> q + used gs <= 4294967296 ->
  next_frames crc (map (fun g => (png_of g, ctl g)) gs) (out, other, q) =
  Some (out ++ List.concat (map enc (later q gs)), other ++ List.concat (map enc (flat_map extra gs)), q + used gs).
Proof.
  induction gs as [|g gs IH]; intros out other q F Q L; [cbn; rewrite !app_nil_r, Z.add_0_r; reflexivity|]. inversion F as [|? ? P F']; subst.
  cbn [used] in L. pose proof (used_nonneg gs). cbn [map next_frames]. rewrite pack4_ok by lia. cbn [obind]. rewrite control_ok by auto. cbn [obind]. rewrite make_ok by (cbn; lia). cbn [obind].
  change (p_chunks (png_of g)) with (map raw (chunks_of g)). unfold chunks_of. rewrite map_cons, map_app.
  assert (S1 : forall st r, next_chunks crc (raw (header g) :: r) st = next_chunks crc r st) by (intros ((a, b), c) r; reflexivity).
  rewrite S1. destruct P as (_ & _ & _ & B). fold (idats g). rewrite next_body by (auto; unfold idats in *; lia).
  assert (S2 : forall st, next_chunks crc (map raw [trailer]) st = Some st) by (intros ((a, b), c); reflexivity). rewrite S2. cbn [obind].
  fold (idats g). fold (extra g). rewrite IH by (auto; lia). cbn [later flat_map used map]. rewrite !map_app. cbn [map List.concat]. rewrite !concat_app, <- !app_assoc. f_equal. f_equal. lia.
Qed.
(** the file *)
Definition result (plays : Z) (g : image) (gs : list image) : list chunk :=
  header g :: (tag "acTL", be4 (Z.of_nat (length (g :: gs))) ++ be4 plays) :: (tag "fcTL", be4 0 ++ control_data fps g) ::
  (others (g_body g) ++ idats g) ++ later 1 gs ++ flat_map extra gs ++ [trailer].
Lemma to_ok : forall plays g gs, Forall plain (g :: gs) -> 0 <= plays < 4294967296 -> 1 + used gs <= 4294967296 -> Z.of_nat (length (g :: gs)) < 4294967296 ->
  to_bytes crc plays (map (fun g => (png_of g, ctl g)) (g :: gs)) = Some (written crc (result plays g gs)).
Proof.
  intros plays g gs F PL U N. inversion F as [|? ? P F']; subst. cbn [map to_bytes]. cbn [png_of p_hdr obind].
  change (length ((png_of g, ctl g) :: map (fun g => (png_of g, ctl g)) gs)) with (length (map (fun g => (png_of g, ctl g)) (g :: gs))). rewrite map_length.
  rewrite !pack4_ok by lia. cbn [obind]. rewrite make_ok by (cbn; lia). cbn [obind]. rewrite control_ok by auto. cbn [obind]. rewrite make_ok by (cbn; lia). cbn [obind].
  change (p_chunks (png_of g)) with (map raw (chunks_of g)). rewrite first_ok by auto. rewrite next_ok by (auto; lia). cbn [obind].
  assert (E : p_end (fst (last ((png_of g, ctl g) :: map (fun g => (png_of g, ctl g)) gs) (png_of g, ctl g))) = Some (enc trailer)).
  { clear. generalize (png_of g, ctl g) at 2. intros d. revert g. induction gs as [|x gs IH]; intros g; [reflexivity|]. exact (IH x). }
  rewrite E. cbn [obind fst snd]. f_equal. unfold result, written, sign. cbn [map List.concat]. rewrite !map_app, !concat_app. cbn [map List.concat]. rewrite !app_nil_r.
  rewrite <- !app_assoc. cbn [app]. reflexivity.
Qed.

(** ** What a player finds in it *)
Lemma play_skip : forall l fs, Forall (fun c => is "fcTL" c = false /\ is "IDAT" c = false /\ is "fdAT" c = false) l -> fold_left play1 l fs = fs.
Proof. induction l as [|c l IH]; intros fs F; [reflexivity|]. inversion F as [|? ? (A & B & C) F']; subst. cbn [fold_left]. unfold play1 at 2. rewrite A, B, C. auto. Qed.
Lemma play_idats : forall l k x fs, Forall (fun c => is "IDAT" c = true) l -> fold_left play1 l ((k, x) :: fs) = (k, x ++ List.concat (map snd l)) :: fs.
Proof.
  induction l as [|c l IH]; intros k x fs F; [cbn; rewrite app_nil_r; reflexivity|]. inversion F as [|? ? A F']; subst. cbn [fold_left]. unfold play1 at 2.
  assert (B : is "fcTL" c = false) by (unfold is in *; apply same_iff in A; rewrite A; reflexivity). rewrite B, A. cbn [add]. rewrite IH by auto. cbn [map List.concat]. rewrite app_assoc. reflexivity.
Qed.
Lemma play_fd : forall l q k x fs, fold_left play1 (fd q l) ((k, x) :: fs) = (k, x ++ List.concat (map snd l)) :: fs.
Proof.
  induction l as [|c l IH]; intros q k x fs; [cbn; rewrite app_nil_r; reflexivity|]. cbn [fd fold_left].
  assert (E : forall d, play1 ((k, x) :: fs) (tag "fdAT", be4 q ++ d) = (k, x ++ d) :: fs) by reflexivity. rewrite E, IH. cbn [map List.concat]. rewrite app_assoc. reflexivity.
Qed.
Lemma play_later : forall gs q fs, fold_left play1 (later q gs) fs = rev (map (fun g => (control_data fps g, data g)) gs) ++ fs.
Proof.
  induction gs as [|g gs IH]; intros q fs; [reflexivity|]. cbn [later fold_left]. assert (E : play1 fs (tag "fcTL", be4 q ++ control_data fps g) = (control_data fps g, []) :: fs) by reflexivity.
  rewrite E, fold_left_app, play_fd, IH. cbn [map rev app]. rewrite <- app_assoc. reflexivity.
Qed.
Lemma is_filter : forall l, Forall (fun c => is "IDAT" c = true) (filter (is "IDAT") l).
Proof. intros l. apply Forall_forall. intros c I. apply filter_In in I. tauto. Qed.
Lemma no_frame : forall g c, plain g -> In c (g_body g) -> is "IDAT" c = false -> is "fcTL" c = false /\ is "IDAT" c = false /\ is "fdAT" c = false.
Proof.
  intros g c P I N. pose proof (proj1 (Forall_forall _ _) (body_not g "fcTL" P ltac:(cbn; auto 6)) c I) as A. pose proof (proj1 (Forall_forall _ _) (body_not g "fdAT" P ltac:(cbn; auto 6)) c I) as B. auto.
Qed.
Lemma others_skip : forall g, plain g -> Forall (fun c => is "fcTL" c = false /\ is "IDAT" c = false /\ is "fdAT" c = false) (others (g_body g)).
Proof. intros g P. apply Forall_forall. intros c I. apply filter_In in I. destruct I as (I & N). apply negb_true_iff in N. eapply no_frame; eauto. Qed.
Lemma extra_skip : forall gs, Forall plain gs -> Forall (fun c => is "fcTL" c = false /\ is "IDAT" c = false /\ is "fdAT" c = false) (flat_map extra gs).
Proof.
  intros gs F. apply Forall_forall. intros c I. apply in_flat_map in I. destruct I as (g & G & I). apply filter_In in I. destruct I as (I & N). apply andb_true_iff in N. destruct N as (N & _). apply negb_true_iff in N.
  rewrite Forall_forall in F. eapply no_frame; eauto.
Qed.
Lemma played_ok : forall plays g gs, Forall plain (g :: gs) -> played (result plays g gs) = map (fun g => (control_data fps g, data g)) (g :: gs).
Proof.
  intros plays g gs F. inversion F as [|? ? P F']; subst. unfold played, result. cbn [fold_left].
  assert (E1 : play1 [] (header g) = []) by reflexivity. assert (E2 : forall d, play1 [] (tag "acTL", d) = []) by reflexivity.
  assert (E3 : play1 [] (tag "fcTL", be4 0 ++ control_data fps g) = [(control_data fps g, [])]) by reflexivity. rewrite E1, E2, E3.
  rewrite !fold_left_app. rewrite (play_skip (others (g_body g))) by (apply others_skip; auto). rewrite (play_idats (idats g)) by apply is_filter. rewrite play_later. rewrite (play_skip (flat_map extra gs)) by (apply extra_skip; auto).
  cbn [fold_left]. change (play1 ?x trailer) with x. rewrite rev_app_distr, rev_involutive. reflexivity.
Qed.
(** consecutive numbers *)
Fixpoint from_to (a : Z) (n : nat) : list Z := match n with O => [] | S n => a :: from_to (a + 1) n end.
Lemma from_to_app : forall n a m, from_to a (n + m) = from_to a n ++ from_to (a + Z.of_nat n) m.
Proof. induction n as [|n IH]; intros a m; [cbn; rewrite Z.add_0_r; reflexivity|]. cbn [from_to plus app]. rewrite IH. f_equal. f_equal. f_equal. lia. Qed.
Lemma numbers_app : forall a b, numbers (a ++ b) = numbers a ++ numbers b.
Proof. intros. unfold numbers. rewrite filter_app, map_app. reflexivity. Qed.
Lemma numbers_none : forall l, Forall (fun c => is "fcTL" c = false /\ is "fdAT" c = false) l -> numbers l = [].
Proof. induction l as [|c l IH]; intros F; [reflexivity|]. inversion F as [|? ? (A & B) F']; subst. unfold numbers in *. cbn [filter]. rewrite A, B. auto. Qed.
Lemma numbers_fd : forall l q, 0 <= q -> q + Z.of_nat (length l) <= 4294967296 -> numbers (fd q l) = map Some (from_to q (length l)).
Proof.
  induction l as [|c l IH]; intros q Q L; [reflexivity|]. cbn [length] in L. cbn [fd length from_to map]. rewrite <- IH by lia. rewrite <- (unpack_be4 q) by lia. reflexivity.
Qed.
Lemma numbers_later : forall gs q, 0 <= q -> q + used gs <= 4294967296 -> numbers (later q gs) = map Some (from_to q (Z.to_nat (used gs))).
Proof.
  induction gs as [|g gs IH]; intros q Q L; [reflexivity|]. cbn [used] in L. pose proof (used_nonneg gs). cbn [later used].
  replace (Z.to_nat (1 + Z.of_nat (length (idats g)) + used gs)) with (S (length (idats g) + Z.to_nat (used gs)))%nat by lia. cbn [from_to map]. rewrite from_to_app, map_app.
  rewrite <- IH by lia. rewrite <- numbers_fd by lia. rewrite <- numbers_app. rewrite <- (unpack_be4 q) by lia. reflexivity.
Qed.
Lemma numbers_ok : forall plays g gs, Forall plain (g :: gs) -> 1 + used gs <= 4294967296 -> numbers (result plays g gs) = map Some (from_to 0 (S (Z.to_nat (used gs)))).
Proof.
  intros plays g gs F U. inversion F as [|? ? P F']; subst. unfold result. cbn [from_to map]. rewrite <- (numbers_later gs (0 + 1)) by lia.
  assert (E : forall l, numbers (header g :: (tag "acTL", be4 (Z.of_nat (length (g :: gs))) ++ be4 plays) :: (tag "fcTL", be4 0 ++ control_data fps g) :: l) = Some 0 :: numbers l) by reflexivity.
  rewrite E. f_equal. rewrite !numbers_app.
  rewrite (numbers_none (others (g_body g))) by (eapply Forall_impl; [|apply others_skip; exact P]; cbv beta; tauto).
  rewrite (numbers_none (idats g)) by (eapply Forall_impl; [|apply is_filter]; cbv beta; intros c A; unfold is in *; apply same_iff in A; rewrite A; split; reflexivity).
  rewrite (numbers_none (flat_map extra gs)) by (eapply Forall_impl; [|apply extra_skip; exact F']; cbv beta; tauto). cbn [app]. change (numbers [trailer]) with (@nil (option Z)). rewrite app_nil_r. reflexivity.
Qed.
(** all chunks can be read back *)
Lemma body_proper : forall f g, plain g -> Forall proper (filter f (g_body g)).
Proof.
  intros f g (_ & _ & _ & B). apply Forall_forall. intros c I. apply filter_In in I. destruct I as (I & _). rewrite Forall_forall in B. destruct (B c I) as ((T & D) & _). split; [auto | unfold bytes, chunk in *; lia].
Qed.
Lemma fd_proper : forall l q, Forall small l -> Forall proper (fd q l).
Proof.
  induction l as [|c l IH]; intros q F; [constructor|]. inversion F as [|? ? (T & D) F']; subst. constructor; auto. split; [reflexivity|]. cbn [snd]. rewrite app_length, be4_length. unfold bytes, chunk in *. lia.
Qed.
Lemma later_proper : forall gs q, Forall plain gs -> Forall proper (later q gs).
Proof.
  induction gs as [|g gs IH]; intros q F; [constructor|]. inversion F as [|? ? P F']; subst. constructor; [split; [reflexivity | cbn; lia]|]. apply Forall_app. split; auto. apply fd_proper.
  destruct P as (_ & _ & _ & B). apply Forall_forall. intros c I. apply filter_In in I. destruct I as (I & _). rewrite Forall_forall in B. apply (B c I).
Qed.
Lemma result_proper : forall plays g gs, Forall plain (g :: gs) -> Forall proper (result plays g gs).
Proof.
  intros plays g gs F. inversion F as [|? ? P F']; subst. unfold result. constructor; [destruct P as (_ & _ & R & _); split; [reflexivity | cbn [header snd]; rewrite !app_length, R; cbn; lia]|].
  constructor; [split; [reflexivity | cbn; lia]|]. constructor; [split; [reflexivity | cbn; lia]|]. repeat (apply Forall_app; split); auto using body_proper, later_proper.
  - apply body_proper; auto.
  - apply body_proper; auto.
  - apply Forall_forall. intros c I. apply in_flat_map in I. destruct I as (x & X & I). rewrite Forall_forall in F'. pose proof (body_proper (fun c => negb (is "IDAT" c) && negb (among (fst c) before_idat)) x (F' x X)) as B. rewrite Forall_forall in B. apply B. exact I.
  - constructor; [split; [reflexivity | cbn; lia] | constructor].
Qed.
Lemma video_frames : forall gs, Forall plain gs -> all_some (map (fun b => p <- from_bytes b ;; frame_of fps p) (map (fun g => written crc (chunks_of g)) gs)) = Some (map (fun g => (png_of g, ctl g)) gs).
Proof.
  induction gs as [|g gs IH]; intros F; [reflexivity|]. inversion F as [|? ? P F']; subst. cbn [map all_some]. rewrite from_ok by auto. cbn [obind frame_of png_of p_width p_height]. rewrite IH by auto. reflexivity.
Qed.
End S.

(** ** Theorems *)
Definition in_order (pingpong : bool) (gs : list image) : list image := if pingpong then gs ++ rev gs else gs.
(** not too many pictures and image data chunks for the format *)
Definition fits (gs : list image) : Prop := used gs < 4294967296.
(** The file is in PNG format, starts with the header of the first picture and the number of frames and of repetitions, and ends with IEND; a player finds the image data of all
    pictures in order, each with its own size and the duration 1/fps; the sequence numbers are 0, 1, 2, ... *)
Theorem C85_frames : forall crc pp plays fps gs, gs <> [] -> Forall plain gs -> fits (in_order pp gs) -> 0 <= plays < 4294967296 -> 0 <= fps < 65536 ->
  exists cs, video crc pp plays fps (map (fun g => written crc (chunks_of g)) gs) = Some (written crc cs) /\ Forall proper cs /\
    played cs = map (fun g => (control_data fps g, data g)) (in_order pp gs) /\
    (exists n, numbers cs = map Some (from_to 0 n)) /\
    exists g l, nth_error gs 0 = Some g /\ cs = header g :: (tag "acTL", be4 (Z.of_nat (length (in_order pp gs))) ++ be4 plays) :: l ++ [trailer].
Proof.
  intros crc pp plays fps gs N F U PL FP. assert (F2 : Forall plain (in_order pp gs)).
  { unfold in_order. destruct pp; auto. apply Forall_app. split; auto. apply Forall_rev. auto. }
  assert (V : video crc pp plays fps (map (fun g => written crc (chunks_of g)) gs) = to_bytes crc plays (map (fun g => (png_of crc g, ctl fps g)) (in_order pp gs))).
  { unfold video. replace (if pp then map (fun g => written crc (chunks_of g)) gs ++ rev (map (fun g => written crc (chunks_of g)) gs) else map (fun g => written crc (chunks_of g)) gs)
      with (map (fun g => written crc (chunks_of g)) (in_order pp gs)) by (unfold in_order; destruct pp; rewrite ?map_app, ?map_rev; reflexivity).
    rewrite video_frames by auto. reflexivity. }
  destruct gs as [|g gs0]; [congruence|]. assert (E : exists r, in_order pp (g :: gs0) = g :: r) by (unfold in_order; destruct pp; cbn; eauto). destruct E as (r & E). unfold fits in U. rewrite E in *.
  exists (result fps plays g r). cbn [used] in U. assert (LU : forall l, Z.of_nat (length l) <= used l) by (induction l; cbn [used length]; lia). pose proof (LU (g :: r)) as L0. cbn [used] in L0.
  rewrite V, to_ok by (auto; lia). split; [reflexivity|]. split; [apply result_proper; auto|]. split; [apply played_ok; auto|]. split; [eexists; apply numbers_ok; auto; lia|].
  exists g. unfold result. eexists. split; [reflexivity|]. rewrite !app_assoc. rewrite app_comm_cons. reflexivity.
Qed.
(** what is written can be read: the chunks of such a file are found again, so reading is not ambiguous *)
Theorem C85_readable : forall crc cs, Forall proper cs -> option_map (map fst) (parse_chunks (written crc cs)) = Some (map fst cs) /\ forall cs', Forall proper cs' -> written crc cs = written crc cs' -> cs = cs'.
Proof.
  intros crc cs F. split; [rewrite parse_written by auto; cbn; rewrite map_map; reflexivity|]. intros cs' F' E.
  pose proof (parse_written crc cs F) as A. rewrite E, parse_written in A by auto. injection A as A. clear E. revert cs' F' A. induction F as [|c cs P F IH]; intros [|c' cs'] F' A; try discriminate; auto.
  inversion F' as [|? ? P' F'']; subst. assert (A1 : raw crc c' = raw crc c) by (apply (f_equal (hd (raw crc c))) in A; exact A). assert (A2 : map (raw crc) cs' = map (raw crc) cs) by (apply (f_equal (@tl _)) in A; exact A).
  f_equal; auto. pose proof (f_equal fst A1) as B1. pose proof (f_equal snd A1) as B2. unfold raw in B1, B2. cbn [fst snd] in B1, B2.
  pose proof (content_enc crc c (proj1 P)) as C1. pose proof (content_enc crc c' (proj1 P')) as C2. rewrite B2 in C2. assert (B3 : snd c' = snd c) by (etransitivity; [symmetry; exact C2 | exact C1]).
  clear - B1 B3. destruct c as (t, d), c' as (t', d'). cbn in B1, B3. subst. reflexivity.
Qed.
(** the palette of a later picture is not in the file: its data are shown in the colours of the first *)
Definition two_colours (c : Z) : image := mkImg 1 1 [8; 3; 0; 0; 0] [(tag "PLTE", [c; c; c]); (tag "IDAT", [1; 2; 3])].
Theorem C85_palette_refuted : exists g g' cs, Forall plain [g; g'] /\ g_body g' <> g_body g /\ video (fun _ => 0) false 0 30 (map (fun g => written (fun _ => 0) (chunks_of g)) [g; g']) = Some (written (fun _ => 0) cs) /\
  In (tag "PLTE", [200; 200; 200]) (g_body g') /\ filter (is "PLTE") cs = filter (is "PLTE") (g_body g) /\ ~ In (tag "PLTE", [200; 200; 200]) cs.
Proof.
  exists (two_colours 100), (two_colours 200), (result 30 0 (two_colours 100) [two_colours 200]).
  assert (P : Forall plain [two_colours 100; two_colours 200]) by (repeat constructor; cbn; lia). split; auto. split; [discriminate|].
  split; [vm_compute; reflexivity|]. split; [left; reflexivity|]. split; [vm_compute; reflexivity|]. vm_compute. intros H. repeat (destruct H as [H|H]; [discriminate H|]). destruct H.
Qed.
(** with fps 0.5, int(fps) is 0, and the delay is 1/0, which means 1/100 second in this format, instead of two seconds *)
Definition delay (k : bytes) : option (Z * Z) := match skipn 16 k with [a; b; c; d; _; _] => let den := c * 256 + d in Some (a * 256 + b, if den =? 0 then 100 else den) | _ => None end.
Theorem C85_delay : forall fps g, 0 < fps < 65536 -> delay (control_data fps g) = Some (1, fps).
Proof.
  intros fps g H. unfold delay, control_data, be4. cbn [app skipn]. assert (E : fps / 256 * 256 + fps mod 256 = fps) by (Z.to_euclidean_division_equations; lia). rewrite E.
  replace (fps =? 0) with false by (symmetry; apply Z.eqb_neq; lia). reflexivity.
Qed.
Theorem C85_slow_refuted : exists f : Q, (0 < f)%Q /\ forall g, exists a b, delay (control_data (Qfloor f) g) = Some (a, b) /\ ~ (inject_Z a / inject_Z b == 1 / f)%Q.
Proof. exists (1 # 2)%Q. split; [reflexivity|]. intros g. exists 1, 100. split; [reflexivity | intros H; discriminate H]. Qed.
Example C85_case : Forall plain [two_colours 1; two_colours 2; two_colours 3] /\ fits (in_order true [two_colours 1; two_colours 2; two_colours 3]) /\ data (two_colours 2) = [1; 2; 3] /\
  length (written (fun _ => 7) (chunks_of (two_colours 1))) = 75%nat /\ be4 16909060 = [1; 2; 3; 4].
Proof. split; [repeat constructor; cbn; lia|]. split; [vm_compute; reflexivity|]. repeat split. Qed.
Print Assumptions C85_frames.
Print Assumptions C85_readable.
Print Assumptions C85_palette_refuted.
Print Assumptions C85_delay.
Print Assumptions C85_slow_refuted.
