(** What tracks and the control network made of them should be. *)
From Coq Require Import List ZArith Bool Relations Sorting.Sorted.
From Verif Require Import Lib.Base Lib.Str CNet.Model Tracks.Model.
Import ListNotations.
Open Scope Z_scope.

(** Matches between things: things that are matched, and things that are joined
    by a chain of matches. *)
Definition matched {X} (l : list (X * X)) (x : X) : Prop := exists y, In (x, y) l \/ In (y, x) l.
Definition joined {X} (l : list (X * X)) : X -> X -> Prop := clos_refl_sym_trans X (fun a b => In (a, b) l).

(** No two features of an image are joined. *)
Definition consistent {F} (l : list ((Z * F) * (Z * F))) : Prop := forall c f g, joined l (c, f) (c, g) -> f = g.

(** The matches of features: image and number of each. *)
Definition links (pw : pairwise) : list ((Z * Z) * (Z * Z)) :=
  flat_map (fun e => map (fun m => ((fst (fst e), fst m), (snd (fst e), snd m))) (snd e)) pw.

(** Feature [f] of image [c] is in track [p]. *)
Definition in_track (ts : trackmap) (p c f : Z) : Prop := exists track, In (p, track) ts /\ In (c, f) track.

(** [s] is [l] without some elements. *)
Inductive subseq {X} : list X -> list X -> Prop :=
| sub_nil : subseq [] []
| sub_skip x s l : subseq s l -> subseq s (x :: l)
| sub_take x s l : subseq s l -> subseq (x :: s) (x :: l).

(** The matches [c] taken from a file: none if there are too few, all of them up to
    the limit, and otherwise as many as the limit; scales that are not positive
    are 10. *)
Definition good_scale (p : kp) : kp := let '(x, y, s) := p in (x, y, if 0 <? s then s else 10).
Definition file_matches (f : file) : list (kp * kp) := combine (map good_scale (fip1 f)) (map good_scale (fip2 f)).
Definition taken (min_matches : nat) (max_pairwise : Z) (f : file) (c : list (kp * kp)) : Prop :=
  if (length (fip1 f) <? min_matches)%nat then c = []
  else if (0 <=? max_pairwise) && (max_pairwise <? Z.of_nat (length (fip1 f)))
       then Z.of_nat (length c) = max_pairwise /\ subseq c (file_matches f)
       else c = file_matches f.

(** All matches taken, with the images. *)
Definition all_matches (fs : list file) (cs : list (list (kp * kp))) : list ((Z * kp) * (Z * kp)) :=
  flat_map (fun fc => map (fun m => ((fleft (fst fc), fst m), (fright (fst fc), snd m))) (snd fc)) (combine fs cs).

(** Files as read_match_file and the caller give them: as many points in both
    images, images of the list, two different ones, and each pair once. *)
Definition proper (images : nat) (fs : list file) : Prop :=
  NoDup (map (fun f => (fleft f, fright f)) fs) /\
  forall f, In f fs -> length (fip1 f) = length (fip2 f) /\ fleft f <> fright f /\
    0 <= fleft f < Z.of_nat images /\ 0 <= fright f < Z.of_nat images.

(** The interest point of a measure. *)
Definition keypoint (m : measure) : Z * kp := (Z.of_nat (mimage m), (mcol m, mrow m, mcol_sigma m)).
