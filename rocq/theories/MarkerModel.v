(** Line markers: lib/src/ros_msg.cpp. *)
From Coq Require Import List ZArith Bool String.
From Flocq Require Import BinarySingleNaN.
From Verif Require Import Base Arith.
Import ListNotations.
Open Scope Z_scope.

(** geometry_msgs::msg::Point (ros_msg.cpp:91-98). *)
Record gpoint := GPoint { gx : b64; gy : b64; gz : b64 }.
(** What ros_msg.cpp:147-188 writes of visualization_msgs::msg::Marker; the type is LINE_LIST (5). *)
Record marker := Marker { mtype : Z; mstamp : Z; mframe : string; scale_x : b64;
                          red : b32; green : b32; blue : b32; alpha : b32; mpoints : list gpoint }.
(** ros_msg.cpp:91-98 MakePoint; an Eigen::Vector3d is a triple. *)
Definition make_point (p : b64 * b64 * b64) : gpoint := let '(x, y, z) := p in GPoint x y z.
(** ros_msg.cpp:147-154 InitLines; the members of a message are zero at first. *)
Definition init_lines (stamp : Z) (frame : string) : marker :=
  Marker 5 stamp frame (B754_zero false) (B754_zero false) (B754_zero false) (B754_zero false) (B754_zero false) [].
(** The condition 0. <= x && x <= 1. of ros_msg.cpp:158, 169-172; the float becomes a double. *)
Definition in_unit (x : b32) : bool := Bleb (of_Z64 0) (conv64 x) && Bleb (conv64 x) (of_Z64 1).
(** ros_msg.cpp:156-160 SetWidth. *)
Definition set_width (m : marker) (width : b32) : outcome marker :=
  assert_ (in_unit width)
  (Ok (Marker (mtype m) (mstamp m) (mframe m) (conv64 width) (red m) (green m) (blue m) (alpha m) (mpoints m))).
(** ros_msg.cpp:162-178 SetColor. *)
Definition set_color (m : marker) (r g b a : b32) : outcome marker :=
  assert_ (in_unit r) (assert_ (in_unit g) (assert_ (in_unit b) (assert_ (in_unit a)
  (Ok (Marker (mtype m) (mstamp m) (mframe m) (scale_x m) r g b a (mpoints m)))))).
(** ros_msg.cpp:180-188 AddLine. *)
Definition add_line (m : marker) (s e : b64 * b64 * b64) : marker :=
  Marker (mtype m) (mstamp m) (mframe m) (scale_x m) (red m) (green m) (blue m) (alpha m) (mpoints m ++ [make_point s] ++ [make_point e]).

(** A caller of ros_msg.cpp:156-188 on one marker. *)
Inductive call := Width (w : b32) | Color (r g b a : b32) | Line (s e : b64 * b64 * b64).
(** One call (ros_msg.cpp:156-188). *)
Definition do_call (m : marker) (c : call) : outcome marker :=
  match c with
  | Width w => set_width m w
  | Color r g b a => set_color m r g b a
  | Line s e => Ok (add_line m s e)
  end.
(** InitLines and any calls after it (ros_msg.cpp:147-188). *)
Definition draw (stamp : Z) (frame : string) (calls : list call) : outcome marker := foldM do_call (init_lines stamp frame) calls.
