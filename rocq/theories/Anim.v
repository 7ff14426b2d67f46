(** The animation loop: what is shown when (C74). *)
From Coq Require Import QArith Lqa List Bool Arith ZArith Lia.
From Verif Require Import Base Kernel Wp KernelE KernelL KernelX KernelT KernelQ KernelS KernelC PropSched PropCalls PropPeek.
Import ListNotations.
Open Scope Q_scope.

(** ** Model *)
(** The attributes of Environment that the animation loop uses: the kernel state, [_t] (10594),
    [animation_start_time] and [animation_start_clocktime] (13909-13910), [_speed], [_paused],
    [_synced], [_video] (true: a name was given), [video_t], [_real_fps], [_step_pressed], [_animate].
    [a_frames] are the frames handed to _save_frame (13576), latest first: animation time and kernel
    state.  [a_n] counts the turns taken (specification only), [a_w] is the value of time.time() at the
    latest use; it is taken to stand still during one pass through the loop. *)
Record anim := { a_s : env; a_n : nat; a_w : Q; a_t : Q; a_st : Q; a_sc : Q; a_speed : Q; a_paused : bool; a_synced : bool;
  a_video : bool; a_vt : Q; a_rfps : Q; a_step : bool; a_on : bool; a_frames : list (Q * env) }.
Definition u_s (s : env) (n : nat) (a : anim) : anim :=
  Build_anim s n (a_w a) (a_t a) (a_st a) (a_sc a) (a_speed a) (a_paused a) (a_synced a) (a_video a) (a_vt a) (a_rfps a) (a_step a) (a_on a) (a_frames a).
Definition u_w (w : Q) (a : anim) : anim :=
  Build_anim (a_s a) (a_n a) w (a_t a) (a_st a) (a_sc a) (a_speed a) (a_paused a) (a_synced a) (a_video a) (a_vt a) (a_rfps a) (a_step a) (a_on a) (a_frames a).
Definition u_t (t : Q) (a : anim) : anim :=
  Build_anim (a_s a) (a_n a) (a_w a) t (a_st a) (a_sc a) (a_speed a) (a_paused a) (a_synced a) (a_video a) (a_vt a) (a_rfps a) (a_step a) (a_on a) (a_frames a).
Definition u_speed (v : Q) (a : anim) : anim :=
  Build_anim (a_s a) (a_n a) (a_w a) (a_t a) (a_st a) (a_sc a) v (a_paused a) (a_synced a) (a_video a) (a_vt a) (a_rfps a) (a_step a) (a_on a) (a_frames a).
Definition u_paused (v : bool) (a : anim) : anim :=
  Build_anim (a_s a) (a_n a) (a_w a) (a_t a) (a_st a) (a_sc a) (a_speed a) v (a_synced a) (a_video a) (a_vt a) (a_rfps a) (a_step a) (a_on a) (a_frames a).
Definition u_synced (v : bool) (a : anim) : anim :=
  Build_anim (a_s a) (a_n a) (a_w a) (a_t a) (a_st a) (a_sc a) (a_speed a) (a_paused a) v (a_video a) (a_vt a) (a_rfps a) (a_step a) (a_on a) (a_frames a).
Definition u_video (v : bool) (f : Q) (a : anim) : anim :=
  Build_anim (a_s a) (a_n a) (a_w a) (a_t a) (a_st a) (a_sc a) (a_speed a) (a_paused a) (a_synced a) v (a_vt a) f (a_step a) (a_on a) (a_frames a).
Definition u_vt (v : Q) (a : anim) : anim :=
  Build_anim (a_s a) (a_n a) (a_w a) (a_t a) (a_st a) (a_sc a) (a_speed a) (a_paused a) (a_synced a) (a_video a) v (a_rfps a) (a_step a) (a_on a) (a_frames a).
Definition u_step (v : bool) (a : anim) : anim :=
  Build_anim (a_s a) (a_n a) (a_w a) (a_t a) (a_st a) (a_sc a) (a_speed a) (a_paused a) (a_synced a) (a_video a) (a_vt a) (a_rfps a) v (a_on a) (a_frames a).
Definition u_on (v : bool) (a : anim) : anim :=
  Build_anim (a_s a) (a_n a) (a_w a) (a_t a) (a_st a) (a_sc a) (a_speed a) (a_paused a) (a_synced a) (a_video a) (a_vt a) (a_rfps a) (a_step a) v (a_frames a).
Definition u_frames (v : list (Q * env)) (a : anim) : anim :=
  Build_anim (a_s a) (a_n a) (a_w a) (a_t a) (a_st a) (a_sc a) (a_speed a) (a_paused a) (a_synced a) (a_video a) (a_vt a) (a_rfps a) (a_step a) (a_on a) v.

(** set_start_animation 13907-13910 (the audio part is left out) *)
Definition set_start (a : anim) : anim :=
  Build_anim (a_s a) (a_n a) (a_w a) (a_t a) (a_t a) (a_w a) (a_speed a) (a_paused a) (a_synced a) (a_video a) (a_vt a) (a_rfps a) (a_step a) (a_on a) (a_frames a).
(** paused 13297-13299 (without the UI window) *)
Definition set_paused (b : bool) (a : anim) : anim := set_start (u_paused b a).

(** What can be done about the animation.  [AParam speed synced frame animate video] is
    animation_parameters 11605-11935, to which speed(), synced(), animate(), video() and others
    lead; [frame]: a width, height, title or show_menu_buttons other than the present one is given;
    [video]: Some None stops the video, Some (Some f) starts another one at f frames per second (11826, 11857, 11862). *)
Inductive action :=
| AParam (speed : option Q) (synced : option bool) (frame : bool) (animate : option bool) (video : option (option Q))
| APaused (b : bool)
| AHalf | ADouble | AGo | AMenu | AMenuGo | ASynced | AStep.

Definition params (sp : option Q) (sy : option bool) (fr : bool) (an : option bool) (vd : option (option Q)) (a : anim) : anim :=
  let a1 := match sp with Some v => set_start (u_speed v a) | None => a end in            (* 11607-11609 *)
  let a2 := match sy with Some b => set_start (u_synced b a1) | None => a1 end in          (* 11620-11624 *)
  let fc1 := fr in                                                                        (* 11626-11680 *)
  let fc2 := match an with Some b => fc1 || negb (Bool.eqb b (a_on a)) | None => fc1 end in (* 11795-11796 *)
  let a3 := match an with Some b => u_on b a2 | None => a2 end in                          (* 11797 *)
  let fc := if a_on a then fc2 else a_on a3 in                                             (* 11804-11810 *)
  let a4 := match vd with
            | Some (Some f) => u_video true f a3
            | Some None => u_video false (a_rfps a3) a3
            | None => a3
            end in                                                                        (* 11822-11862 *)
  let a5 := if a_video a4 then u_vt (now (a_s a4)) a4 else a4 in                           (* 11903-11904 *)
  if fc && a_on a5 then set_start (u_paused false (u_t (now (a_s a5)) a5)) else a5.        (* 11929-11935 *)

(** an_half 13813, an_double 13817, an_go 13821, an_menu 13873, an_menu_go 13867, an_synced 13853, an_step 13857 *)
Definition an_go (a : anim) : anim :=
  let a := set_paused false a in if a_synced a then set_start a else u_step true a.
Definition an_menu (a : anim) : anim := set_start (set_paused true a).
Definition act (x : action) (a : anim) : anim :=
  match x with
  | AParam sp sy fr an vd => params sp sy fr an vd a
  | APaused b => set_paused b a
  | AHalf => set_start (u_speed (a_speed a / 2) a)
  | ADouble => set_start (u_speed (a_speed a * 2) a)
  | AGo => an_go a
  | AMenu => an_menu a
  | AMenuGo => if a_paused a then an_go a else an_menu a
  | ASynced => u_synced (negb (a_synced a)) a
  | AStep => u_step true a
  end.
Definition acts (l : list action) (a : anim) : anim := fold_left (fun a x => act x a) l a.

(** The simulated program.  Whenever a component becomes current its process runs up to the next
    point where it gives up control: the calls it makes are [body k s], k the number of the turn and
    s the state at its start; exceptions of these calls are caught by the process.  When run() has
    returned, [body] is what the main program does up to and including the next run().  [orders] is what
    the process or main program does about the animation meanwhile (speed, paused, ...).  [quiet c]:
    component c has _suppress_pause_at_step. *)
Section Animation.
Variable fuel : nat.
Variable body : nat -> env -> list op.
Variable orders : nat -> env -> list action.
Variable quiet : nat -> bool.

Definition perform (l : list op) (s : env) : env := fold_left (fun s o => fst (exec fuel o s)) l s.
(** step 11135 and the process it resumes; an exception ends the simulation *)
Definition turn (k : nat) (s : env) : option env :=
  match exec fuel OStep s with
  | (s1, Ok _) => Some (if running s1 then perform (body k s1) s1 else s1)
  | (_, Er _) => None
  end.
Definition turn_a (a : anim) : option anim :=
  match turn (a_n a) (a_s a) with
  | Some s1 => Some (if running s1 then acts (orders (a_n a) s1) (u_s s1 (S (a_n a)) a) else u_s s1 (S (a_n a)) a)
  | None => None
  end.

(** The inner loop of simulate_and_animate_loop 13467-13472.  The flag tells whether the loop is left
    because the run has ended or the animation was switched off.  [g]: number of events in one pass. *)
Fixpoint catch_up (g : nat) (a : anim) : option (anim * bool) :=
  if xltb (peek (a_s a)) (Fin (a_t a)) then
    match g with
    | O => None
    | S g' => match turn_a a with
              | Some a1 => if running (a_s a1) && a_on a1 then catch_up g' a1 else Some (a1, false)
              | None => None
              end
    end
  else Some (a, true).
(** [_t] at the start of a pass, 13459-13466 *)
Definition clocked (a : anim) : Q :=
  if a_video a then a_vt a else if a_paused a then a_st a else a_st a + (a_w a - a_sc a) * a_speed a.
(** One pass through simulate_and_animate_loop 13457-13586 at clock time w (without 3d).  The flag
    tells whether a frame is drawn; otherwise the loop is left. *)
Definition pass (g : nat) (w : Q) (a0 : anim) : option (anim * bool) :=
  let a := u_w w a0 in
  match (if a_synced a || a_video a then catch_up g (u_t (clocked a) a)
         else if a_step a || negb (a_paused a) then
                match turn_a a with
                | Some a1 => let a2 := if quiet (cur (a_s a1)) then a1 else u_step false a1 in
                             Some (u_t (now (a_s a2)) a2, true)
                | None => None
                end
              else Some (a, true)) with
  | Some (a1, true) =>
      if running (a_s a1) && a_on a1 then
        Some (if a_video a1 && negb (a_paused a1)
              then u_vt (a_vt a1 + a_speed a1 / a_rfps a1) (u_frames ((a_t a1, a_s a1) :: a_frames a1) a1)
              else a1, true)
      else Some (a1, false)
  | r => r
  end.
(** an_single_step 13860-13865 *)
Definition single_step (a : anim) : option anim :=
  match turn_a (u_step true a) with
  | Some a1 => let a2 := set_paused true a1 in Some (set_start (u_t (now (a_s a2)) a2))
  | None => None
  end.

(** ** Specification *)
(** the simulation without animation: the state after k turns *)
Definition next (k : nat) (s : env) : option env :=
  if running s then turn k s else Some (perform (body k s) s).
Fixpoint plain (s0 : env) (k : nat) : option env :=
  match k with
  | O => Some s0
  | S k => match plain s0 k with Some s => next k s | None => None end
  end.
(** Executions with animation.  Keys and buttons are handled at the end of a pass (g.canvas.update 13586);
    in between the main program goes on when a run has ended, and the run goes on without animation
    when the animation has been switched off (do_simulate 13422).  [keys] tells which actions are done at
    the keyboard, [single] whether the single step key is used. *)
Variable keys : action -> Prop.
Variable single : bool.
Inductive shown : anim -> anim -> Prop :=
| sh_refl : forall a, shown a a
| sh_pass : forall a b c g w d, shown a b -> running (a_s b) = true -> a_on b = true -> a_w b <= w ->
    pass g w b = Some (c, d) -> shown a c
| sh_act : forall a b w x, shown a b -> a_w b <= w -> keys x -> shown a (act x (u_w w b))
| sh_single : forall a b c w, shown a b -> running (a_s b) = true -> a_w b <= w -> single = true ->
    single_step (u_w w b) = Some c -> running (a_s c) = true -> shown a c
| sh_off : forall a b c w, shown a b -> running (a_s b) = true -> a_on b = false -> a_w b <= w ->
    turn_a (u_w w b) = Some c -> shown a c
| sh_main : forall a b w, shown a b -> running (a_s b) = false -> a_w b <= w ->
    shown a (acts (orders (a_n b) (a_s b)) (u_s (perform (body (a_n b) (a_s b)) (a_s b)) (S (a_n b)) (u_w w b))).
End Animation.
