(** The xterm palette of 256 colours, from its definition. *)
From Verif Require Import Base Colors_Model.
Local Open Scope N_scope.

(** The sixteen basic colours: bits 0, 1, 2 are red, green and blue, at half intensity below 8;
    7 is light grey and 8 is dark grey. *)
Definition basic (c : N) : rgb :=
  if c =? 7 then (192, 192, 192) else if c =? 8 then (128, 128, 128)
  else let level := if c <? 8 then 128 else 255 in
       let bit k := if N.testbit c k then level else 0 in
       (bit 0, bit 1, bit 2).

(** The levels of the six by six by six colour cube. *)
Definition cube_level (i : N) : N := if i =? 0 then 0 else 55 + 40 * i.

Definition xterm (c : N) : rgb :=
  if c <? 16 then basic c
  else if c <? 232 then
    let i := c - 16 in (cube_level (i / 36), cube_level (i / 6 mod 6), cube_level (i mod 6))
  else let g := 8 + 10 * (c - 232) in (g, g, g).
