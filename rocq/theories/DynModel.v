(** Right-hand sides of the ordinary differential equations that the classic control environments hand to scipy's odeint
    (mushroom_rl/environments/car_on_hill.py, inverted_pendulum.py, cart_pole.py, segway.py), and what CarOnHill and Segway
    draw. Numbers are reals; x ** 1.5 is [Rpower]. The integrator itself is not modelled here: theorems speak of exact solutions. *)
From Coq Require Import Reals List.
From Verif Require Import Common EnvModel.
Import ListNotations.
Local Open Scope R_scope.

(** * CarOnHill *)
(** _dpds, car_on_hill.py 130-135: diff_hill *)
Definition car_diff (p : R) : R := if Rlt_dec p 0 then 2 * p + 1 else 1 / Rpower (1 + 5 * p ^ 2) (3 / 2).
(** 132, 135: diff_2_hill *)
Definition car_diff2 (p : R) : R := if Rlt_dec p 0 then 2 else (-15 * p) / Rpower (1 + 5 * p ^ 2) (5 / 2).
(** _dpds, car_on_hill.py 125-141: position, velocity and action *)
Definition car_dpds (g m : R) (x : R * R * R) : R * R * R :=
  let '(p, v, u) := x in
  (v, (u - g * m * car_diff p - v ^ 2 * m * car_diff p * car_diff2 p) / (m * (1 + car_diff p ^ 2)), 0).
(** _height, car_on_hill.py 111-123, for one abscissa of the unit window *)
Definition car_height (x : R) : R :=
  let y := if Rlt_dec x (1 / 2) then 4 * x ^ 2 - 2 * x else (2 * x - 1) / sqrt (5 * (2 * x - 1) ^ 2 + 1) in (y + 1) / 2.
(** _angle, car_on_hill.py 102-108 *)
Definition car_angle (x : R) : R := atan (if Rlt_dec x (1 / 2) then 4 * x - 1 else 1 / Rpower (20 * x ^ 2 - 20 * x + 6) (3 / 2)).
(** render, car_on_hill.py 86-90: centre and inclination of the car *)
Definition car_drawn (p : R) : R * R * R := let x := (p + 1) / 2 in (x, car_height x, car_angle x).

(** * InvertedPendulum._dynamics, inverted_pendulum.py 108-117 *)
Definition pend_dyn (m l g mu wmax u : R) (x : R * R) : R * R :=
  let '(th, w0) := x in
  let w := bound w0 (- wmax) wmax in
  (w, (- mu * w + m * g * l * sin th + u) / (m * l ^ 2)).

(** * CartPole._dynamics, cart_pole.py 117-127; alpha is set in the constructor, line 37 *)
Definition cart_dyn (m M l g u : R) (x : R * R) : R * R :=
  let '(th, w) := x in
  let alpha := 1 / (m + M) in
  (w, (g * sin th - alpha * m * l * (1 / 2) * w ^ 2 * sin (2 * th) * (1 / 2) - alpha * cos th * u) / (2 / 3 * l - alpha * m * l * (1 / 2) * cos th ^ 2)).

(** * Segway._dynamics, segway.py 93-114 *)
Section Segway.
Variables Mr Mp Ip Ir l r g : R.
Definition seg_h1 : R := (Mr + Mp) * r ^ 2 + Ir.
Definition seg_h2 (al : R) : R := Mp * r * l * cos al.
Definition seg_h3 : R := l ^ 2 * Mp + Ip.
Definition seg_dyn (u : R) (x : R * R * R) : R * R * R :=
  let '(al, wp, wr) := x in
  let h1 := seg_h1 in let h2 := seg_h2 al in let h3 := seg_h3 in
  (wp,
   - (h2 * l * Mp * r * sin al * wp ^ 2 - g * h1 * l * Mp * sin al + (h2 + h1) * u) / (h1 * h3 - h2 ^ 2),
   (h3 * l * Mp * r * sin al * wp ^ 2 - g * h2 * l * Mp * sin al + (h3 + h2) * u) / (h1 * h3 - h2 ^ 2)).
(** the Python operator % on floats, for a positive divisor *)
Definition fmod (x d : R) : R := x - d * IZR (Int_part (x / d)).
(** render, segway.py 116-133: new value of _last_x, then abscissas of wheel and tip as drawn. [dt] is info.dt. *)
Definition seg_draw (dt last : R) (x : R * R * R) : R * (R * R) :=
  let '(al, wp, wr) := x in
  let x1 := last + - wr * r * dt in
  let x2 := if Rlt_dec (5 / 2 * l) x1 then fmod (5 / 2 * l + x1) (5 * l) - 5 / 2 * l
            else if Rlt_dec x1 (- (5 / 2) * l) then fmod (5 / 2 * l + x1) (5 * l) - 5 / 2 * l else x1 in
  let s := 5 / 2 * l + x2 in let e := 5 / 2 * l + (- 2 * l * sin al + x2) in
  (x2, if Rlt_dec (5 * l) s then (if Rlt_dec (5 * l) e then (fmod s 5 * l, fmod e 5 * l) else (s, e))
       else if Rlt_dec s 0 then (if Rlt_dec e 0 then (fmod s 5 * l, fmod e 5 * l) else (s, e)) else (s, e)).
End Segway.
