(** Animated images: reading the frames and choosing the one to show, salabim.py ImageContainer.init 27681-27711, get_image 27716-27748,
    and the test whether the picture has to be made again 15744-15778.
    Simplified: exact numbers; the file is at its first frame when it is opened; as PIL does, seek to a frame that is not there raises EOFError and leaves the file at its last
    frame; of the identification of the picture on the screen only the frame number changes (size, angle, transparency and flips are constant). *)
From Coq Require Import QArith Qround List Bool Arith ZArith.
From Verif Require Import Base.
Import ListNotations.
Open Scope Q_scope.

(** a picture is a copy of a frame, or the opened file itself, that shows the frame it is at *)
Inductive pic := Copy (i : nat) | File.
(** a file: the durations of its frames (seconds) and the frame it is at *)
Record file := mkF { f_dur : list Q; f_at : nat }.
Record container := mkI { i_images : list (pic * xq); i_duration : Q; i_file : file }.
Definition info (f : file) : Q := nth (f_at f) (f_dur f) 0.
(** 27701-27708 *)
Fixpoint frames_loop (n : nat) (f : file) (e : Q) (acc : list (pic * xq)) : file * Q * list (pic * xq) :=
  match n with
  | O => (f, e, acc)
  | S n =>
    let f' := mkF (f_dur f) (S (f_at f)) in
    if (S (f_at f) <? length (f_dur f))%nat then
      let e' := e + info f' in frames_loop n f' e' (acc ++ [(Copy (f_at f'), Fin e')])
    else (f, e, acc)       (* EOFError *)
  end.
(** 27711 *)
Fixpoint last_inf (l : list (pic * xq)) : list (pic * xq) :=
  match l with [] => [] | [(p, _)] => [(p, PInf)] | x :: r => x :: last_inf r end.
(** 27686-27711 *)
Definition load (durs : list Q) : container :=
  let f := mkF durs 0 in
  if (length durs <=? 1)%nat then mkI [(Copy 0, PInf)] 0 f
  else
    let e := info f in
    let '(f', e', l) := frames_loop (length durs) f e [(File, Fin e)] in
    mkI (last_inf l) e' f'.

(** what is seen of a picture *)
Definition seen (c : container) (p : pic) : nat := match p with Copy i => i | File => f_at (i_file c) end.

(** t % m, m > 0 *)
Definition qmod (t m : Q) : Q := t - m * inject_Z (Qfloor (t / m)).
Inductive shown := Pic (p : pic) | Dummy.
Inductive got := Got (x : shown) (id : Z) | Raises | Nothing.
(** 27746-27748 *)
Fixpoint pick (t : Q) (i : Z) (l : list (pic * xq)) : got :=
  match l with
  | [] => Nothing
  | (p, e) :: r => if xleb (Fin t) e then Got (Pic p) i else pick t (i + 1) r
  end.
Definition get_image (c : container) (t : Q) (repeat pingpong : bool) (from : Q) (to : xq) : got :=
  match i_images c with
  | [(p, _)] => Got (Pic p) 0
  | _ =>
    if Qltb t 0 then Got Dummy (-1) else
    let to := match to with PInf => i_duration c | Fin x => x end in
    if negb (Qle_bool 0 from && Qltb from to) then Raises else
    if Qltb (i_duration c) to then Raises else
    let interval := if pingpong then 2 * (to - from) else to - from in
    if negb repeat && Qltb interval t then Got Dummy 0 else
    let t := qmod t interval in
    let t := if pingpong then (if Qle_bool t (interval / 2) then from + t else from + interval - t) else from + t in
    pick t 0 (i_images c)
  end.

(** 15753-15755: the picture on the screen is made again only if its number differs from that of the previous one *)
Definition display (prev : option (Z * shown)) (g : got) : option (Z * shown) :=
  match g with
  | Got x id => match prev with Some (id0, y) => if Z.eqb id0 id then prev else Some (id, x) | None => Some (id, x) end
  | _ => prev
  end.
(** the picture on the screen after it has been shown at the given moments *)
Definition screen (c : container) (repeat pingpong : bool) (from : Q) (to : xq) (ts : list Q) : option (Z * shown) :=
  fold_left (fun prev t => display prev (get_image c t repeat pingpong from to)) ts None.
