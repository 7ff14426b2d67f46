(** Animated PNG files as written by video_close: _APNG 24702-24826 and 12032-12040.
    Bytes are integers.  Simplified: exceptions are None; the crc is a parameter (any function); a file is read from the rest of its bytes instead of from an index. *)
From Coq Require Import ZArith Bool String Ascii List Lia.
Import ListNotations.
Open Scope Z_scope.

Definition bytes := list Z.
Definition obind {A B} (x : option A) (f : A -> option B) : option B := match x with Some a => f a | None => None end.
Notation "x <- m ;; k" := (obind m (fun x => k)) (at level 61, m at next level, right associativity).
Fixpoint tag (s : string) : bytes := match s with EmptyString => [] | String c r => Z.of_nat (nat_of_ascii c) :: tag r end.
Fixpoint same (a b : bytes) : bool := match a, b with [], [] => true | x :: a, y :: b => (x =? y) && same a b | _, _ => false end.
Definition among (t : bytes) (l : list string) : bool := existsb (fun s => same t (tag s)) l.

(** struct.pack "!I", "!H", "!b" and struct.unpack "!I" *)
Definition be4 (x : Z) : bytes := [x / 16777216; x / 65536 mod 256; x / 256 mod 256; x mod 256].
Definition pack4 (x : Z) : option bytes := if (0 <=? x) && (x <? 4294967296) then Some (be4 x) else None.
Definition pack2 (x : Z) : option bytes := if (0 <=? x) && (x <? 65536) then Some [x / 256; x mod 256] else None.
Definition pack1 (x : Z) : option bytes := if (-128 <=? x) && (x <? 128) then Some [x mod 256] else None.
Definition unpack4 (b : bytes) : option Z := match b with [p; q; r; s] => Some (((p * 256 + q) * 256 + r) * 256 + s) | _ => None end.

(** ** PNG 24707-24740 *)
Record png := mkPng { p_hdr : option bytes; p_end : option bytes; p_width : option Z; p_height : option Z; p_chunks : list (bytes * bytes) }.
(** parse_chunks 24726-24733 *)
Fixpoint parse (n : nat) (b : bytes) : option (list (bytes * bytes)) :=
  match b with
  | [] => Some []
  | _ =>
    match n with
    | O => None
    | S n =>
      len <- unpack4 (firstn 4 b) ;;
      let k := Z.to_nat (len + 12) in
      rest <- parse n (skipn k b) ;;
      Some ((firstn 4 (skipn 4 b), firstn k b) :: rest)
    end
  end.
Definition parse_chunks (b : bytes) : option (list (bytes * bytes)) := parse (length b) (skipn 8 b).
(** init 24715-24724: the last of the chunks with the type *)
Definition last_of (t : string) (l : list (bytes * bytes)) : option bytes :=
  fold_left (fun r c => if same (fst c) (tag t) then Some (snd c) else r) l None.
Definition from_bytes (b : bytes) : option png :=
  l <- parse_chunks b ;;
  let h := last_of "IHDR" l in let e := last_of "IEND" l in
  match h with
  | Some (x :: r) => w <- unpack4 (firstn 4 (skipn 8 (x :: r))) ;; v <- unpack4 (firstn 4 (skipn 12 (x :: r))) ;; Some (mkPng h e (Some w) (Some v) l)
  | _ => Some (mkPng h e None None l)
  end.

(** ** FrameControl 24742-24754 and append 24767-24775, as video_close calls it: delay 1, delay_den given *)
Record control := mkK { k_w : Z; k_h : Z; k_x : Z; k_y : Z; k_delay : Z; k_den : Z; k_dispose : Z; k_blend : Z }.
Definition control_bytes (k : control) : option bytes :=
  a <- pack4 (k_w k) ;; b <- pack4 (k_h k) ;; c <- pack4 (k_x k) ;; d <- pack4 (k_y k) ;; e <- pack2 (k_delay k) ;; f <- pack2 (k_den k) ;; g <- pack1 (k_dispose k) ;; h <- pack1 (k_blend k) ;;
  Some (a ++ b ++ c ++ d ++ e ++ f ++ g ++ h).
Definition frame_of (den : Z) (p : png) : option (png * control) :=
  w <- p_width p ;; h <- p_height p ;; Some (p, mkK w h 0 0 1 den 1 0).

Section Crc.
Variable crc : bytes -> Z.
(** make_chunk 24760-24765 *)
Definition make_chunk (t : string) (d : bytes) : option bytes :=
  l <- pack4 (Z.of_nat (length d)) ;; c <- pack4 (Z.land (crc (tag t ++ d)) 4294967295) ;; Some (l ++ (tag t ++ d) ++ c).
Definition before_idat : list string := ["cHRM"; "gAMA"; "iCCP"; "sBIT"; "sRGB"; "bKGD"; "hIST"; "tRNS"; "pHYs"; "sPLT"; "tIME"; "PLTE"]%string.
(** data[8:-4] *)
Definition content (raw : bytes) : bytes := let r := skipn 8 raw in firstn (length r - 4) r.
(** 24790-24798: the chunks of the first frame *)
Definition first_chunks (l : list (bytes * bytes)) : bytes :=
  List.concat (map snd (filter (fun c => negb (among (fst c) ["IHDR"; "IEND"; "IDAT"]%string)) l)) ++ List.concat (map snd (filter (fun c => same (fst c) (tag "IDAT")) l)).
(** 24802-24810: those of another frame; out, other_chunks, seq *)
Fixpoint next_chunks (l : list (bytes * bytes)) (st : bytes * bytes * Z) : option (bytes * bytes * Z) :=
  match l with
  | [] => Some st
  | (t, d) :: r =>
    let '(out, other, seq) := st in
    if among t ["IHDR"; "IEND"]%string || among t before_idat then next_chunks r st
    else if same t (tag "IDAT") then
      s <- pack4 seq ;; c <- make_chunk "fdAT" (s ++ content d) ;; next_chunks r (out ++ c, other, seq + 1)
    else next_chunks r (out, other ++ d, seq)
  end.
Fixpoint next_frames (l : list (png * control)) (st : bytes * bytes * Z) : option (bytes * bytes * Z) :=
  match l with
  | [] => Some st
  | (p, k) :: r =>
    let '(out, other, seq) := st in
    s <- pack4 seq ;; kb <- control_bytes k ;; c <- make_chunk "fcTL" (s ++ kb) ;;
    st' <- next_chunks (p_chunks p) (out ++ c, other, seq + 1) ;;
    next_frames r st'
  end.
Definition sign : bytes := [137; 80; 78; 71; 13; 10; 26; 10].
(** to_bytes 24777-24815 *)
Definition to_bytes (plays : Z) (frames : list (png * control)) : option bytes :=
  match frames with
  | [] => None
  | (p, k) :: r =>
    hdr <- p_hdr p ;;
    n <- pack4 (Z.of_nat (length frames)) ;; m <- pack4 plays ;; ac <- make_chunk "acTL" (n ++ m) ;;
    s <- pack4 0 ;; kb <- control_bytes k ;; fc <- make_chunk "fcTL" (s ++ kb) ;;
    st <- next_frames r (sign ++ hdr ++ ac ++ fc ++ first_chunks (p_chunks p), [], 1) ;;
    e <- p_end (fst (last frames (p, k))) ;;
    Some (fst (fst st) ++ snd (fst st) ++ e)
  end.
(** video_close 12032-12040: the pictures in PNG format, pingpong, int(fps) *)
Fixpoint all_some {A} (l : list (option A)) : option (list A) := match l with [] => Some [] | x :: r => a <- x ;; t <- all_some r ;; Some (a :: t) end.
Definition video (pingpong : bool) (plays fps : Z) (images : list bytes) : option bytes :=
  let images := if pingpong then images ++ rev images else images in
  frames <- all_some (map (fun b => p <- from_bytes b ;; frame_of fps p) images) ;;
  to_bytes plays frames.
End Crc.
