(* The drawing of queues: AnimateQueue and Animate3dQueue.

   Source: /repo/salabim/salabim.py, class AnimateQueue 18114-18429 (update
   18304-18409, show 18411-18419, remove 18421-18426), class Animate3dQueue
   18432-18648 (update 18565-18623, show 18633-18639, remove 18641-18645) and
   the loop that calls update in every frame, 10773-10775.

   Simplified: an animation object is a number together with the attributes
   that update sets ( x, y, angle in two dimensions; x_offset, y_offset,
   z_offset in three ).  What the object looks like is left out.  The two sets
   an_objects and an_objects_over3d are one list here, as over3d does not
   change for one AnimateQueue.  The values of the dynamic attributes in one
   frame (DynamicClass, 3446-3467) are given as the fields of the frame.
   AnimateClassic objects get x0 and y0 instead of x and y (18378-18384); that
   is the same attribute here. *)

From Coq Require Import List ZArith QArith Bool Lia.
Import ListNotations.
Open Scope Q_scope.

(* animation objects: of this AnimateQueue (Own) or of anybody else (Alien) *)
Inductive oid := Own (n : nat) | Alien (n : nat).

Definition oid_eqb (a b : oid) : bool :=
  match a, b with
  | Own m, Own n => Nat.eqb m n
  | Alien m, Alien n => Nat.eqb m n
  | _, _ => false
  end.

(* the three numbers that update gives to an animation object *)
Definition attrs := (Q * Q * Q)%type.

(* the first two (three) items of the tuple that animation_objects
   (animation3d_objects) returns: each a number or a function of the time
   ( _call, 18375-18376, 18596-18598 ) *)
Record dims := Dims { d_x : Q -> Q; d_y : Q -> Q; d_z : Q -> Q }.

(* one value of current_aos: sizes and animation objects *)
Record ent := Ent { en_dim : dims; en_obs : list oid }.

(* What a component's own animation_objects method does when it is called for
   the k-th time (counted over all calls): the sizes, and for each object in
   the tuple either None (a new object is made in the call) or Some o (an
   existing object is returned again). *)
Definition method := nat -> nat -> dims * list (option oid).

(* an AnimateQueue, and the screen it draws on *)
Record st := St {
  on : bool;                      (* self in env.sys_objects *)
  title : bool;                   (* ao_title is shown *)
  aos : list (nat * ent);         (* self.current_aos, in order of insertion *)
  shown : list oid;               (* env.an_objects *)
  attr : oid -> attrs;
  next : nat;                     (* the next new object *)
  calls : nat                     (* the number of calls of animation_objects so far *)
}.

Definition set_on (b : bool) (s : st) : st :=
  St b (title s) (aos s) (shown s) (attr s) (next s) (calls s).
Definition set_title (b : bool) (s : st) : st :=
  St (on s) b (aos s) (shown s) (attr s) (next s) (calls s).
Definition set_aos (l : list (nat * ent)) (s : st) : st :=
  St (on s) (title s) l (shown s) (attr s) (next s) (calls s).

(* set.add and set.discard, as used at 15419 and 15432 *)
Definition add_ob (o : oid) (l : list oid) : list oid :=
  if existsb (oid_eqb o) l then l else l ++ [o].
Definition hide (o : oid) (s : st) : st :=
  St (on s) (title s) (aos s) (filter (fun x => negb (oid_eqb o x)) (shown s)) (attr s)
     (next s) (calls s).
Definition hide_all (l : list oid) (s : st) : st := fold_left (fun s o => hide o s) l s.

(* dicts: c in d; d[c]; del d[c]; d[c] = e *)
Definition look {A} (c : nat) (l : list (nat * A)) : option A :=
  match find (fun x => Nat.eqb c (fst x)) l with Some x => Some (snd x) | None => None end.
Definition del {A} (c : nat) (l : list (nat * A)) : list (nat * A) :=
  filter (fun x => negb (Nat.eqb c (fst x))) l.
Definition put {A} (c : nat) (e : A) (l : list (nat * A)) : list (nat * A) :=
  match look c l with
  | Some _ => map (fun x => if Nat.eqb c (fst x) then (c, e) else x) l
  | None => l ++ [(c, e)]
  end.

(* the call c.animation_objects(...) at 18373 (18590-18592): objects made in the
   call are shown by their own __init__ (15407-15408) *)
Fixpoint build (l : list (option oid)) (s : st) : list oid * st :=
  match l with
  | [] => ([], s)
  | Some o :: t => let '(r, s') := build t s in (o :: r, s')
  | None :: t =>
      let o := Own (next s) in
      let s1 := St (on s) (title s) (aos s) (add_ob o (shown s)) (attr s) (S (next s)) (calls s) in
      let '(r, s') := build t s1 in (o :: r, s')
  end.
Definition call_method (m : method) (c : nat) (s : st) : ent * st :=
  let '(d, l) := m c (calls s) in
  let '(obs, s') := build l s in
  (Ent d obs, St (on s') (title s') (aos s') (shown s') (attr s') (next s') (S (calls s'))).

(* ao.x = ...; ao.y = ... for all objects of one component (18377-18392, 18600-18603) *)
Definition set_attr (f : attrs -> attrs) (o : oid) (s : st) : st :=
  St (on s) (title s) (aos s) (shown s) (fun x => if oid_eqb o x then f (attr s x) else attr s x)
     (next s) (calls s).
Definition place (f : attrs -> attrs) (l : list oid) (s : st) : st :=
  fold_left (fun s o => set_attr f o s) l s.

(* The loop over the queue (18359-18405, 18584-18619).  cur is the place of the
   next component, reuse says whether objects of the previous frame are used
   again, mv moves the place, pl gives the attributes for a place. *)
Fixpoint loop (m : method) (vis : bool) (mx : option Z) (reuse : bool)
  (mv : ent -> attrs -> attrs) (pl : attrs -> attrs -> attrs)
  (n : Z) (q : list nat) (cur : attrs) (prev : list (nat * ent)) (s : st)
  : list (nat * ent) * st :=
  match q with
  | [] => (prev, s)
  | c :: t =>
      if (match mx with Some k => Z.leb k n | None => false end) || negb vis then (prev, s)
      else
        let '(e, prev1, s1) :=
          match look c prev, reuse with
          | Some e, true => (e, del c prev, s)
          | _, _ => let '(e, s') := call_method m c s in (e, prev, s')
          end in
        let s2 := set_aos (put c e (aos s1)) s1 in
        let s3 := place (pl cur) (en_obs e) s2 in
        loop m vis mx reuse mv pl (n + 1) t (mv e cur) prev1 s3
  end.

(* the objects in the values of a dict, all removed (18407-18409, 18424-18426) *)
Definition obs_of (l : list (nat * ent)) : list oid := flat_map (fun x => en_obs (snd x)) l.

(* the direction, in lower case; any other text is Bad *)
Inductive dir2 := DirE | DirW | DirN | DirS | Bad2.
Inductive dir3 := Xp | Xm | Yp | Ym | Zp | Zm | Bad3.

(* the attributes of an AnimateQueue in one frame, at time f_t; f_ax and f_ay are
   the coordinates of the anchor (xy_anchor_to_x, xy_anchor_to_y); f_scaled says
   that env._scalez != env._last_scalez *)
Record frame2 := F2 {
  f_t : Q; f_keep : bool; f_visible : bool; f_max : option Z; f_dir : dir2; f_reverse : bool;
  f_x : Q; f_y : Q; f_ax : Q; f_ay : Q; f_traj : option (Q -> attrs); f_scaled : bool;
  f_q : list nat
}.

(* 18394-18403 *)
Definition mv2 (f : frame2) (e : ent) (p : attrs) : attrs :=
  let '(x, y, z) := p in
  let dx := d_x (en_dim e) (f_t f) in
  let dy := d_y (en_dim e) (f_t f) in
  match f_traj f with
  | Some _ => (x + dx * 1, y, z)
  | None =>
      match f_dir f with
      | DirW => (x - dx, y, z)
      | DirS => (x, y - dy, z)
      | DirE => (x + dx, y, z)
      | DirN => (x, y + dy, z)
      | Bad2 => (x, y, z)
      end
  end.

(* 18379-18392: without a trajectory the angle of the object is not touched *)
Definition pl2 (f : frame2) (p old : attrs) : attrs :=
  let '(x, y, _) := p in
  match f_traj f with
  | Some tr =>
      let '(a, b, ang) := tr (x * 1) in (f_x f + a, f_y f + b, ang)
  | None => (x, y, snd old)
  end.

(* 18421-18426 *)
Definition remove2 (s : st) : st :=
  hide_all (obs_of (aos s)) (set_title false (set_on false s)).

(* 18411-18419 *)
Definition show2 (s : st) : st := set_aos [] (set_on true (set_title true s)).

(* 18304-18409; the place starts at x, y (at 0, 0 with a trajectory, 18314-18323)
   plus the anchor (18330-18331) *)
Definition update2 (m : method) (f : frame2) (s : st) : st :=
  if negb (f_keep f) then remove2 s
  else
    let prev := aos s in
    let '(x, y) := match f_traj f with None => (f_x f, f_y f) | Some _ => (0, 0) end in
    let q := if f_reverse f then rev (f_q f) else f_q f in
    let '(prev', s') :=
      loop m (f_visible f) (f_max f) (f_scaled f) (mv2 f) (pl2 f) 0 q
           (x + f_ax f, y + f_ay f, 0) prev (set_aos [] s) in
    hide_all (obs_of prev') s'.

(* the attributes of an Animate3dQueue in one frame; its visible attribute is
   not used by update *)
Record frame3 := F3 {
  g_t : Q; g_keep : bool; g_max : option Z; g_dir : dir3; g_reverse : bool;
  g_x : Q; g_y : Q; g_z : Q; g_q : list nat
}.

(* 18605-18618 *)
Definition mv3 (f : frame3) (e : ent) (p : attrs) : attrs :=
  let '(x, y, z) := p in
  let dx := d_x (en_dim e) (g_t f) in
  let dy := d_y (en_dim e) (g_t f) in
  let dz := d_z (en_dim e) (g_t f) in
  match g_dir f with
  | Xp => (x + dx, y, z)
  | Xm => (x - dx, y, z)
  | Yp => (x, y + dy, z)
  | Ym => (x, y - dy, z)
  | Zp => (x, y, z + dz)
  | Zm => (x, y, z - dz)
  | Bad3 => (x, y, z)
  end.

(* 18600-18603 *)
Definition pl3 (p old : attrs) : attrs := p.

(* 18641-18645 *)
Definition remove3 (s : st) : st := set_on false (hide_all (obs_of (aos s)) s).

(* 18633-18639 *)
Definition show3 (s : st) : st := set_on true s.

(* 18565-18623; the second result is true if ValueError is raised (18578-18579),
   which is after current_aos has been emptied (18571) *)
Definition update3 (m : method) (f : frame3) (s : st) : st * bool :=
  if negb (g_keep f) then (remove3 s, false)
  else
    let prev := aos s in
    let s0 := set_aos [] s in
    match g_dir f with
    | Bad3 => (s0, true)
    | _ =>
        let q := if g_reverse f then rev (g_q f) else g_q f in
        let '(prev', s') :=
          loop m true (g_max f) true (mv3 f) pl3 0 q (g_x f, g_y f, g_z f) prev s0 in
        (hide_all (obs_of prev') s', false)
    end.

(* a new AnimateQueue ( __init__ ends in show, 18302; ao_title is made at 18288 )
   and a new Animate3dQueue (18563, no title) on a screen with objects of others *)
Definition new2 (l : list nat) (a : oid -> attrs) : st := St true true [] (map Alien l) a 0 0.
Definition new3 (l : list nat) (a : oid -> attrs) : st := St true false [] (map Alien l) a 0 0.

(* What happens between two frames on the same screen: others show and remove
   their objects.  In each frame (10773-10775) update is called only for those in
   env.sys_objects. *)
Definition alien (b : bool) (k : nat) (s : st) : st :=
  if b then St (on s) (title s) (aos s) (add_ob (Alien k) (shown s)) (attr s) (next s) (calls s)
  else hide (Alien k) s.
Definition tick2 (m : method) (f : frame2) (s : st) : st := if on s then update2 m f s else s.
Definition tick3 (m : method) (f : frame3) (s : st) : st * bool :=
  if on s then update3 m f s else (s, false).
