(** Concrete UDP systems for the examples and the counterexamples. *)
From Coq Require Import List NArith Arith Bool.
Import ListNotations.
From Verif Require Import UdpModel UdpSpec.

(** /repo/src/udp-impl/act.h:15-66, DoThreeColorRing, for a ring of three: the
    copies of the neighbours' colours are variables 0 and 2, the own colour is 1. *)
Fixpoint recolor (fuel a c b : nat) : nat :=
  match fuel with
  | O => c
  | S f => if ((a =? c) || (c =? b))%nat then recolor f a ((c + 1) mod 3) b else c
  end.
Definition color_vbl (k j : nat) (writing : bool) : nat :=
  match k, j, writing with
  | 0, 0, true => 1 | 1, 0, true => 1
  | 0, 0, false => 0 | 1, 0, false => 2
  | _, _, _ => 4
  end.
Definition color_action (_ : N) (x : list nat) : list nat :=
  update x 1 (recolor 3 (nth 0 x 0) (nth 1 x 0) (nth 2 x 0)).
Definition color_node : iden := mkIden 4 [3; 3; 3] color_vbl (fun x => x) color_action.
Definition ring_peer (i k : nat) : nat * nat :=
  match k with 0 => ((i + 2) mod 3, 1) | _ => ((i + 1) mod 3, 0) end.
Definition coin_of (t : list (nat * nat * N)) (i n : nat) : N :=
  match find (fun x => (fst (fst x) =? i) && (snd (fst x) =? n))%nat t with
  | Some (_, e) => e
  | None => N.of_nat n
  end.
Definition new_channel (n : N) : Channel := mkCh (mkSeq n n) no_seq false true 0.
Definition start_process (x : list nat) : State := mkSt 0 x [new_channel 1; new_channel 2] 0.

Definition color_sys (t : list (nat * nat * N)) : system := mkSys 3 (fun _ => color_node) (coin_of t) ring_peer 5.
Definition color_start : net := mkNet [start_process [1;1;1]; start_process [1;1;1]; start_process [1;1;1]] [].

(** Random draws: the priorities 238, 266, 266 and 907 and some distinct keys. *)
Definition color_draws : list (nat * nat * N) := [(0, 1, 238%N); (2, 1, 266%N); (1, 1, 266%N); (1, 7, 907%N)].
(** 29 events; every packet is delivered in order. *)
Definition color_schedule : list event :=
  [Timeout 0; Deliver 1; Timeout 2; Deliver 3; Deliver 0; Deliver 3; Deliver 1; Deliver 3;
   Deliver 0; Timeout 1; Deliver 3; Deliver 2; Deliver 2; Deliver 4; Deliver 2; Deliver 2;
   Deliver 3; Timeout 1; Deliver 5; Deliver 5; Deliver 5; Deliver 5; Deliver 0; Deliver 4;
   Deliver 0; Deliver 0; Deliver 2; Deliver 3; Deliver 4].

(** A one-way ring: variable 0 is the copy of the left neighbour's bit and
    variable 1 the own bit, which is flipped when both are equal. *)
Definition flip_vbl (k j : nat) (writing : bool) : nat :=
  match k, j, writing with 1, 0, true => 1 | 0, 0, false => 0 | _, _, _ => 2 end.
Definition flip_action (_ : N) (x : list nat) : list nat :=
  if (nth 0 x 0 =? nth 1 x 0)%nat then update x 1 (1 - nth 1 x 0) else x.
Definition flip_node : iden := mkIden 2 [2; 2] flip_vbl (fun x => x) flip_action.
Definition flip_sys (t : list (nat * nat * N)) : system := mkSys 3 (fun _ => flip_node) (coin_of t) ring_peer 5.
Definition flip_start : net := mkNet [start_process [0;0]; start_process [0;0]; start_process [0;0]] [].
Definition flip_draws : list (nat * nat * N) := [(0, 1, 856%N); (1, 1, 356%N); (2, 1, 794%N)].
Definition flip_schedule : list event :=
  [Timeout 1; Deliver 0; Timeout 0; Deliver 2; Deliver 3; Deliver 3; Deliver 0; Deliver 3;
   Deliver 4; Deliver 4; Deliver 4; Deliver 0].
