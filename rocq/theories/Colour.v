(** Colours: colornames 24828-24841, colorspec_to_tuple 13989-14051, colorinterpolate 14053-14092 (with interpolate and _i
    24902-24961), is_dark 14144-14167 and the colours of animation_parameters 11702-11714.
    Components given in tuples are whole numbers here (Python also accepts floats); characters are bytes, so digits and
    spaces outside ASCII are not modelled. *)
From Coq Require Import String Ascii List ZArith QArith Qround Bool.
Import ListNotations.
Open Scope string_scope.
Open Scope Z_scope.

(** the pickled dictionary of 24838 *)
Definition colornames : list (string * string) :=
  [("fuchsia", "#FF00FF"); ("", "#00000000"); ("transparent", "#00000000"); ("palevioletred", "#DB7093"); ("skyblue", "#87CEEB");
   ("paleturquoise", "#AFEEEE"); ("cadetblue", "#5F9EA0"); ("orangered", "#FF4500"); ("steelblue", "#4682B4"); ("dimgray", "#696969");
   ("darkseagreen", "#8FBC8F"); ("60%gray", "#999999"); ("royalblue", "#4169E1"); ("mediumblue", "#0000CD"); ("goldenrod", "#DAA520");
   ("mediumvioletred", "#C71585"); ("blueviolet", "#8A2BE2"); ("gainsboro", "#DCDCDC"); ("darkred", "#8B0000"); ("rosybrown", "#BC8F8F");
   ("gold", "#FFD700"); ("coral", "#FF7F50"); ("white", "#FFFFFF"); ("darkcyan", "#008B8B"); ("black", "#000000");
   ("orchid", "#DA70D6"); ("mediumturquoise", "#48D1CC"); ("lightgreen", "#90EE90"); ("lime", "#00FF00"); ("papayawhip", "#FFEFD5");
   ("chocolate", "#D2691E"); ("40%gray", "#666666"); ("oldlace", "#FDF5E6"); ("darkblue", "#00008B"); ("silver", "#C0C0C0");
   ("aquamarine", "#7FFFD4"); ("lightcoral", "#F08080"); ("cyan", "#00FFFF"); ("dodgerblue", "#1E90FF"); ("10%gray", "#191919");
   ("midnightblue", "#191970"); ("green", "#008000"); ("lightsalmon", "#FFA07A"); ("azure", "#F0FFFF"); ("red", "#FF0000");
   ("lightpink", "#FFB6C1"); ("whitesmoke", "#F5F5F5"); ("yellow", "#FFFF00"); ("lawngreen", "#7CFC00"); ("magenta", "#FF00FF");
   ("lightsteelblue", "#B0C4DE"); ("olivedrab", "#6B8E23"); ("lightslategray", "#778899"); ("slategray", "#708090"); ("lightblue", "#ADD8E6");
   ("moccasin", "#FFE4B5"); ("mediumspringgreen", "#00FA9A"); ("lightgray", "#D3D3D3"); ("seashell", "#FFF5EE"); ("darkkhaki", "#BDB76B");
   ("slateblue", "#6A5ACD"); ("aqua", "#00FFFF"); ("palegoldenrod", "#EEE8AA"); ("deeppink", "#FF1493"); ("darkgreen", "#006400");
   ("blanchedalmond", "#FFEBCD"); ("turquoise", "#40E0D0"); ("navy", "#000080"); ("tomato", "#FF6347"); ("yellowgreen", "#9ACD32");
   ("peachpuff", "#FFDAB9"); ("30%gray", "#464646"); ("pink", "#FFC0CB"); ("palegreen", "#98FB98"); ("lightskyblue", "#87CEFA");
   ("chartreuse", "#7FFF00"); ("mediumorchid", "#BA55D3"); ("olive", "#808000"); ("darkorange", "#FF8C00"); ("beige", "#F5F5DC");
   ("forestgreen", "#228B22"); ("mediumpurple", "#9370DB"); ("mintcream", "#F5FFFA"); ("hotpink", "#FF69B4"); ("darkgoldenrod", "#B8860B");
   ("powderblue", "#B0E0E6"); ("honeydew", "#F0FFF0"); ("salmon", "#FA8072"); ("snow", "#FFFAFA"); ("mistyrose", "#FFE4E1");
   ("khaki", "#F0E68C"); ("mediumaquamarine", "#66CDAA"); ("darksalmon", "#E9967A"); ("aliceblue", "#F0F8FF"); ("darkturquoise", "#00CED1");
   ("lightyellow", "#FFFFE0"); ("wheat", "#F5DEB3"); ("lightseagreen", "#20B2AA"); ("lightcyan", "#E0FFFF"); ("antiquewhite", "#FAEBD7");
   ("saddlebrown", "#8B4513"); ("mediumseagreen", "#3CB371"); ("70%gray", "#B2B2B2"); ("sienna", "#A0522D"); ("cornflowerblue", "#6495ED");
   ("seagreen", "#2E8B57"); ("floralwhite", "#FFFAF0"); ("ivory", "#FFFFF0"); ("cornsilk", "#FFF8DC"); ("indianred", "#CD5C5C");
   ("plum", "#DDA0DD"); ("90%gray", "#E6E6E6"); ("greenyellow", "#ADFF2F"); ("teal", "#008080"); ("brown", "#A52A2A");
   ("darkslategray", "#2F4F4F"); ("purple", "#800080"); ("violet", "#EE82EE"); ("deepskyblue", "#00BFFF"); ("ghostwhite", "#F8F8FF");
   ("burlywood", "#DEB887"); ("blue", "#0000FF"); ("crimson", "#DC143C"); ("indigo", "#4B0082"); ("20%gray", "#333333");
   ("darkmagenta", "#8B008B"); ("80%gray", "#CCCCCC"); ("lightgoldenrodyellow", "#FAFAD2"); ("tan", "#D2B48C"); ("limegreen", "#32CD32");
   ("lemonchiffon", "#FFFACD"); ("bisque", "#FFE4C4"); ("firebrick", "#B22222"); ("navajowhite", "#FFDEAD"); ("none", "#00000000");
   ("maroon", "#800000"); ("50%gray", "#7F7F7F"); ("darkgray", "#A9A9A9"); ("orange", "#FFA500"); ("lavenderblush", "#FFF0F5");
   ("darkorchid", "#9932CC"); ("lavender", "#E6E6FA"); ("springgreen", "#00FF7F"); ("thistle", "#D8BFD8"); ("linen", "#FAF0E6");
   ("darkolivegreen", "#556B2F"); ("darkslateblue", "#483D8B"); ("gray", "#808080"); ("darkviolet", "#9400D3"); ("peru", "#CD853F");
   ("sandybrown", "#F4A460"); ("mediumslateblue", "#7B68EE"); ("lightgrey", "#D3D3D3")].

(** a color specification: None, a number, a text, a tuple or list *)
Inductive cspec := CNone | CNum (z : Z) | CStr (s : string) | CTup (l : list cspec).
(** Bad: ValueError or TypeError; Deep: recursion too deep *)
Inductive res (A : Type) := Ok (a : A) | Bad | Deep.
Arguments Ok {A}. Arguments Bad {A}. Arguments Deep {A}.
Definition bind {A B} (r : res A) (f : A -> res B) : res B := match r with Ok a => f a | Bad => Bad | Deep => Deep end.
Record colors := mkColors { foreground : cspec; background : cspec }.

(** a digit of int(.., 16) *)
Definition digit (c : ascii) : option Z :=
  let n := Z.of_N (N_of_ascii c) in
  if (48 <=? n) && (n <=? 57) then Some (n - 48)
  else if (65 <=? n) && (n <=? 70) then Some (n - 55)
  else if (97 <=? n) && (n <=? 102) then Some (n - 87) else None.
(** str.isspace for ASCII characters *)
Definition space (c : ascii) : bool := let n := Z.of_N (N_of_ascii c) in (n =? 32) || ((9 <=? n) && (n <=? 13)) || ((28 <=? n) && (n <=? 31)).
(** int(text of two characters, 16): spaces around and a sign before a digit are accepted *)
Definition int16 (a b : ascii) : res Z :=
  match digit a, digit b with
  | Some x, Some y => Ok (16 * x + y)
  | Some x, None => if space b then Ok x else Bad
  | None, Some y => if space a then Ok y else if Ascii.eqb a "+" then Ok y else if Ascii.eqb a "-" then Ok (- y) else Bad
  | None, None => Bad
  end.
(** str.lower for ASCII, str.replace(" ", ""), and str.split("#") *)
Definition lowc (c : ascii) : ascii := let n := N_of_ascii c in if ((65 <=? n) && (n <=? 90))%N then ascii_of_N (n + 32) else c.
Fixpoint norm (s : string) : string := match s with EmptyString => EmptyString | String c s => if Ascii.eqb c " " then norm s else String (lowc c) (norm s) end.
Fixpoint split (s : string) : string * list string :=
  match s with EmptyString => (EmptyString, []) | String c s => let (h, t) := split s in if Ascii.eqb c "#" then (EmptyString, h :: t) else (String c h, t) end.
Fixpoint lookup (k : string) (l : list (string * string)) : option string := match l with [] => None | (a, v) :: l => if String.eqb a k then Some v else lookup k l end.

(** colorspec_to_tuple 13989-14051 *)
Definition of_hex (s : string) : res (list cspec) :=
  match list_ascii_of_string s with
  | [_; a; b; c; d; e; f] => bind (int16 a b) (fun r => bind (int16 c d) (fun g => bind (int16 e f) (fun b => Ok [CNum r; CNum g; CNum b; CNum 255])))
  | [_; a; b; c; d; e; f; g; h] => bind (int16 a b) (fun r => bind (int16 c d) (fun gr => bind (int16 e f) (fun b => bind (int16 g h) (fun al => Ok [CNum r; CNum gr; CNum b; CNum al]))))
  | _ => Bad
  end.
Fixpoint totuple (n : nat) (e : colors) (c : cspec) : res (list cspec) :=
  match n with
  | O => Deep
  | S n =>
    let c := match c with CNone => CStr "" | _ => c end in
    bind (match c with
          | CStr s => if String.eqb s "fg" then bind (totuple n e (foreground e)) (fun l => Ok (CTup l))
                      else if String.eqb s "bg" then bind (totuple n e (background e)) (fun l => Ok (CTup l)) else Ok c
          | _ => Ok c
          end) (fun c =>
    match c with
    | CTup [a; alpha] => bind (totuple n e a) (fun t => match t with x :: y :: z :: _ => Ok [x; y; z; alpha] | _ => Bad end)
    | CTup [x; y; z] => Ok [x; y; z; CNum 255]
    | CTup [x; y; z; a] => Ok [x; y; z; a]
    | CTup _ => Bad
    | CStr s =>
      match s with
      | String "#" _ => of_hex s
      | _ =>
        let (name, alpha) := match split s with (h, [a]) => (h, a) | _ => (s, "FF") end in
        match lookup (norm name) colornames with
        | Some hex => totuple n e (CStr (if Nat.eqb (String.length hex) 7 then hex ++ alpha else hex))
        | None => Bad
        end
      end
    | CNum _ | CNone => Bad
    end)
  end.

(** == of specifications (a tuple and a list with the same items are different in Python; not distinguished here) *)
Fixpoint ceq (a b : cspec) : bool :=
  match a, b with
  | CNone, CNone => true
  | CNum x, CNum y => x =? y
  | CStr s, CStr t => String.eqb s t
  | CTup l, CTup m => (fix go l m := match l, m with [], [] => true | a :: l, b :: m => ceq a b && go l m | _, _ => false end) l m
  | _, _ => false
  end.
(** int() of a number *)
Definition trunc (q : Q) : Z := Z.quot (Qnum q) (Zpos (Qden q)).
(** _i 24902-24907 followed by int() *)
Definition fade (p : Q) (v0 v1 : Z) : Z := if v0 =? v1 then v0 else trunc ((1 - p) * inject_Z v0 + p * inject_Z v1)%Q.
Definition numbers (l : list cspec) : option (list Z) :=
  fold_right (fun c r => match c, r with CNum z, Some l => Some (z :: l) | _, _ => None end) (Some []) l.
Fixpoint zip (f : Z -> Z -> Z) (l m : list Z) : list Z := match l, m with x :: l, y :: m => f x y :: zip f l m | _, _ => [] end.
(** interpolate 24943-24959 for tuples of numbers, followed by int() of each component *)
Definition interpolate (t t0 t1 : Q) (v0 v1 : list Z) : list Z :=
  let '(t0, t1, v0, v1) := if Qlt_le_dec t1 t0 then (t1, t0, v1, v0) else (t0, t1, v0, v1) in
  if Qeq_bool t0 t1 then v1 else if Qle_bool t t0 then v0 else if Qle_bool t1 t then v1 else zip (fade ((t - t0) / (t1 - t0))%Q) v0 v1.
(** colorinterpolate 14083-14092; t1 = None stands for inf *)
Definition colorinterpolate (n : nat) (e : colors) (t t0 : Q) (t1 : option Q) (v0 v1 : cspec) : res cspec :=
  if ceq v0 v1 then Ok v0
  else match t1 with
  | None => Ok v0
  | Some t1 =>
    if Qeq_bool t0 t1 then Ok v1
    else bind (totuple n e v0) (fun a => bind (totuple n e v1) (fun b =>
      match numbers a, numbers b with
      | Some x, Some y => Ok (CTup (map CNum (interpolate t t0 t1 x y)))
      | _, _ => Bad
      end))
  end.

(** is_dark 14160-14167; the factors of the luma are thousandths *)
Definition dark_rgb (r g b : Z) : bool := negb (255 * 1000 <? 2 * (299 * r + 587 * g + 114 * b)).
Definition is_dark (n : nat) (e : colors) (c : cspec) : res bool :=
  bind (totuple n e c) (fun t =>
    match t with
    | [CNum r; CNum g; CNum b; CNum a] =>
      if a =? 0 then
        bind (totuple n e (CTup [CStr "bg"; CNum 255])) (fun t => match t with CNum r :: CNum g :: CNum b :: _ => Ok (dark_rgb r g b) | _ => Bad end)
      else Ok (dark_rgb r g b)
    | _ => Bad
    end).
(** animation_parameters 11702-11714 *)
Definition forbidden (c : cspec) : bool := match c with CStr s => String.eqb s "fg" || String.eqb s "bg" | _ => false end.
Definition set_colors (n : nat) (e : colors) (bg fg : option cspec) : res colors :=
  bind (match bg with
        | None => Ok e
        | Some b =>
          if forbidden b then Bad
          else let e := mkColors (foreground e) b in
               match fg with None => bind (is_dark n e (CStr "bg")) (fun d => Ok (mkColors (CStr (if d then "white" else "black")) b)) | Some _ => Ok e end
        end)
    (fun e => match fg with None => Ok e | Some f => if forbidden f then Bad else Ok (mkColors f (background e)) end).
