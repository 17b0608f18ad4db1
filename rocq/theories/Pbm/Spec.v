(* What a Netpbm file is. *)
From Coq Require Import ZArith List Bool.
From Verif Require Import Lib.Base IBuf.Model IBuf.Spec Pbm.Model.
Import ListNotations.
Local Open Scope Z_scope.

Definition space (c : Z) : Prop := c = 32 \/ 9 <= c <= 13.
Definition digit (c : Z) : Prop := 48 <= c <= 57.

(* White space and comments (from # to the end of the line, at most 1024
   characters). *)
Inductive gap : list Z -> Prop :=
| gap_nil : gap []
| gap_space c l : space c -> gap l -> gap (c :: l)
| gap_comment t l : ~ In 10 t -> (length t <= 1022)%nat -> gap l -> gap (35 :: t ++ 10 :: l).

(* A decimal number. *)
Inductive numeral : list Z -> Z -> Prop :=
| num_digit c : digit c -> numeral [c] (c - 48)
| num_more ds v c : numeral ds v -> digit c -> numeral (ds ++ [c]) (10 * v + (c - 48)).

(* Samples written as numbers with white space between them; what follows the
   last of them is not looked at. *)
Definition stops (l : list Z) : Prop := match l with [] => True | c :: _ => ~ digit c end.
Inductive samples : list Z -> list Z -> Prop :=
| samples_nil l : samples l []
| samples_cons ws ds v l vs : Forall space ws -> numeral ds v -> v < 2 ^ 32 -> stops l ->
    samples l vs -> samples (ws ++ ds ++ l) (v :: vs).

(* The header of a file of kind m with maximal sample value mx. *)
Inductive header_tail (m mx : Z) : list Z -> Prop :=
| tail_bit c : m = 1 \/ m = 4 -> mx = 1 -> space c -> header_tail m mx [c]
| tail_max g3 dx c : m = 2 \/ m = 3 \/ m = 5 \/ m = 6 -> gap g3 -> g3 <> [] -> numeral dx mx -> space c ->
    header_tail m mx (g3 ++ dx ++ [c]).
Inductive header (m w h mx : Z) : list Z -> Prop :=
| header_intro g0 c1 g1 dw g2 dh tl :
    Forall space g0 -> space c1 -> gap g1 -> numeral dw w -> gap g2 -> g2 <> [] -> numeral dh h ->
    header_tail m mx tl ->
    header m w h mx (g0 ++ [80; 48 + m] ++ c1 :: g1 ++ dw ++ g2 ++ dh ++ tl).

(* A sample scaled to 0..255. *)
Definition scaled (mx v : Z) : Z := if mx <? v then 255 else 255 * v / mx.

Definition pixels_of (m : Z) : pformat := if (m =? 3) || (m =? 6) then PRGB else PGray.
Definition file_format (m w h : Z) (pre : bool) : format :=
  mkfmt w h 1 (pixels_of m) (if (m =? 1) || (m =? 4) then CBool else CU8) pre.
