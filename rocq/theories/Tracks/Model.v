(** From matches of interest points to a control network:
    src/vw/BundleAdjustment/ControlNetworkLoader.cc, with the selection of random
    subsets (src/vw/Math/RandomSet.cc, src/vw/InterestPoint/InterestPointUtils.h).

    Simplifications: coordinates and scales are integers (they are only copied
    and compared); the match files have been read; messages are left out, and the
    points are not triangulated. *)
From Coq Require Import List ZArith Bool.
From Verif Require Import Lib.Base Lib.Lists Lib.Str Lib.OMap CNet.Model.
Import ListNotations.
Open Scope Z_scope.

(** ** Random subsets *)

Section Subset.
(** std::shuffle with a new generator. *)
Variable shuffle : list Z -> list Z.

(** RandomSet.cc 32-60: pick_random_subset. *)
Definition pick_random_subset (output_len : Z) (input : list Z) : res (list Z) :=
  if output_len <? 0 then Throw ArgumentErr else
  let shuffled := shuffle input in
  if Z.of_nat (length shuffled) <=? output_len then Ok shuffled
  else Ok (firstn (Z.to_nat output_len) shuffled).

(** RandomSet.cc 63-78: pick_random_indices_in_range. *)
Definition pick_random_indices_in_range (input_len output_len : Z) : res (list Z) :=
  if (input_len <? 0) || (output_len <? 0) then Throw ArgumentErr
  else pick_random_subset output_len (zseq 0 (Z.to_nat input_len)).

(** std::sort of integers. *)
Fixpoint insert_int (x : Z) (l : list Z) : list Z :=
  match l with [] => [x] | y :: l' => if x <=? y then x :: l else y :: insert_int x l' end.
Definition sort_ints (l : list Z) : list Z := fold_right insert_int [] l.

Definition elem {X} (l : list X) (i : Z) : res X :=
  if i <? 0 then UB OutOfBounds
  else match nth_error l (Z.to_nat i) with Some x => Ok x | None => UB OutOfBounds end.
Fixpoint elems {X} (l : list X) (is_ : list Z) : res (list X) :=
  match is_ with [] => Ok [] | i :: is_ => x <- elem l i ;; m <- elems l is_ ;; Ok (x :: m) end.

(** InterestPointUtils.h 166-191: pick_pair_subset.  (The elements are written to
    vectors of this very length.) *)
Definition pick_pair_subset {X} (ip1 ip2 : list X) (max : Z) : res (list X * list X) :=
  if (0 <=? max) && (max <? Z.of_nat (length ip1)) then
    subset <- pick_random_indices_in_range (Z.of_nat (length ip1)) max ;;
    let subset := sort_ints subset in
    l1 <- elems ip1 subset ;;
    l2 <- elems ip2 subset ;;
    Ok (l1, l2)
  else Ok (ip1, ip2).
End Subset.

(** ** Features *)

(** ControlNetworkLoader.cc 244: ipTriplet, with the order of std::tuple. *)
Definition kp : Type := Z * Z * Z.
Definition kp_ltb : kp -> kp -> bool := pair_ltb (pair_ltb Z.ltb Z.ltb) Z.ltb.
(** std::pair<int, int>. *)
Definition zz_ltb : Z * Z -> Z * Z -> bool := pair_ltb Z.ltb Z.ltb.

(** ControlNetworkLoader.cc 52-54: safe_measurement. *)
Definition safe (p : kp) : kp := let '(x, y, s) := p in if s <=? 0 then (x, y, 10) else p.

(** A match file: the images, and the points of each. *)
Record file := File { fleft : Z; fright : Z; fip1 : list kp; fip2 : list kp }.

(** ControlNetworkLoader.cc 242-243: MATCH_MAP. *)
Definition matches : Type := list ((Z * Z) * (list kp * list kp)).
Definition kmaps : Type := list (list (kp * Z)).

Definition modify_elem {X} (l : list X) (i : Z) (f : X -> X) : res (list X) :=
  x <- elem l i ;; Ok (upd l (Z.to_nat i) (f x)).

(** ControlNetworkLoader.cc 489-494: the features of a file. *)
Fixpoint note_keypoints (i1 i2 : Z) (ip1 ip2 : list kp) (km : kmaps) : res kmaps :=
  match ip1, ip2 with
  | [], _ => Ok km
  | _ :: _, [] => UB OutOfBounds
  | a :: ip1, b :: ip2 =>
      km <- modify_elem km i1 (put kp_ltb a 0) ;;
      km <- modify_elem km i2 (put kp_ltb b 0) ;;
      note_keypoints i1 i2 ip1 ip2 km
  end.

Section Load.
Variable shuffle : list Z -> list Z.
Variable min_matches : nat.
Variable max_pairwise : Z.

(** ControlNetworkLoader.cc 456-498: one file. *)
Definition load_file (f : file) (s : kmaps * matches) : res (kmaps * matches) :=
  let '(km, mm) := s in
  if (length (fip1 f) <? min_matches)%nat then Ok (km, mm) else
  let ip1 := map safe (fip1 f) in
  let ip2 := map safe (fip2 f) in
  '(ip1, ip2) <-
    (if (0 <=? max_pairwise) && (max_pairwise <? Z.of_nat (length ip1))
     then pick_pair_subset shuffle ip1 ip2 max_pairwise else Ok (ip1, ip2)) ;;
  km <- note_keypoints (fleft f) (fright f) ip1 ip2 km ;;
  Ok (km, put zz_ltb (fleft f, fright f) (ip1, ip2) mm).
Fixpoint load_files (fs : list file) (s : kmaps * matches) : res (kmaps * matches) :=
  match fs with
  | [] => Ok s
  | f :: fs => s <- load_file f s ;; load_files fs s
  end.
End Load.

(** ControlNetworkLoader.cc 510-522: the numbers of the features of an image; the
    vector consists of the keys. *)
Fixpoint number (fid : Z) (m : list (kp * Z)) : list (kp * Z) :=
  match m with [] => [] | (k, _) :: m => (k, fid) :: number (fid + 1) m end.

(** ** Matches of features *)

(** ControlNetworkLoader.cc 42: PairWiseMatches. *)
Definition pairwise : Type := list ((Z * Z) * list (Z * Z)).

(** ControlNetworkLoader.cc 280-299: the matches of a pair of images. *)
Fixpoint to_numbers (swap : bool) (cl cr : Z) (ip1 ip2 : list kp) (km : kmaps) : res (list (Z * Z)) :=
  match ip1, ip2 with
  | [], _ => Ok []
  | _ :: _, [] => UB OutOfBounds
  | a :: ip1, b :: ip2 =>
      ml <- elem km cl ;;
      match get kp_ltb a ml with
      | None => Throw ArgumentErr
      | Some i =>
          mr <- elem km cr ;;
          match get kp_ltb b mr with
          | None => Throw ArgumentErr
          | Some j =>
              l <- to_numbers swap cl cr ip1 ip2 km ;;
              Ok ((if swap then (j, i) else (i, j)) :: l)
          end
      end
  end.

(** ControlNetworkLoader.cc 247-305: matchesToMvg. *)
Fixpoint to_mvg (mm : matches) (km : kmaps) (out : pairwise) : res pairwise :=
  match mm with
  | [] => Ok out
  | ((cl, cr), (ip1, ip2)) :: mm =>
      if cl =? cr then Throw ArgumentErr else
      let swap := cr <? cl in
      let pair := if swap then (cr, cl) else (cl, cr) in
      l <- to_numbers swap cl cr ip1 ip2 km ;;
      to_mvg mm km (modify zz_ltb pair [] (fun old => old ++ l) out)
  end.

(** ** Tracks *)

(** ControlNetworkLoader.cc 46 and 321: a track is a map from images to features;
    std::map<int, std::map<int, int>> cid_fid_pid is here a map with pairs as
    keys. *)
Definition trackmap : Type := list (Z * list (Z * Z)).
Record tracking := Tracking { pids : list ((Z * Z) * Z); tracks : trackmap }.

Definition pid_of (t : tracking) (c f : Z) : Z :=
  match get zz_ltb (c, f) (pids t) with Some p => p | None => -1 end.
(** cid_fid_pid[c][f] = p; pid_cid_fid[p][c] = f. *)
Definition set_pid (c f p : Z) (t : tracking) : tracking := Tracking (put zz_ltb (c, f) p (pids t)) (tracks t).
Definition set_track (p c f : Z) (t : tracking) : tracking :=
  Tracking (pids t) (modify Z.ltb p [] (put Z.ltb c f) (tracks t)).

(** ControlNetworkLoader.cc 331-383: one match. *)
Definition add_match (cl cr : Z) (m : Z * Z) (t : tracking) : tracking :=
  let '(f, g) := m in
  let lp := pid_of t cl f in
  let rp := pid_of t cr g in
  if (0 <=? lp) && (0 <=? rp) then t
  else if (0 <=? lp) && (rp <? 0) then set_track lp cr g (set_pid cr g lp t)
  else if (lp <? 0) && (0 <=? rp) then set_track rp cl f (set_pid cl f rp t)
  else
    let p := Z.of_nat (length (tracks t)) in
    set_track p cr g (set_track p cl f (set_pid cr g p (set_pid cl f p t))).

(** ControlNetworkLoader.cc 307-386: buildTracks. *)
Definition build_tracks (pw : pairwise) : trackmap :=
  tracks (fold_left (fun t e => fold_left (fun t m => add_match (fst (fst e)) (snd (fst e)) m t) (snd e) t) pw (Tracking [] [])).

(** ** The network *)

(** vector::at. *)
Definition at_ {X} (l : list X) (i : Z) : res X :=
  if i <? 0 then Throw OtherErr else match nth_error l (Z.to_nat i) with Some x => Ok x | None => Throw OtherErr end.

(** ControlNetworkLoader.cc 416-427: the measures of a track. *)
Fixpoint track_point (kv : list (list kp)) (track : list (Z * Z)) (p : point) : res point :=
  match track with
  | [] => Ok p
  | (c, f) :: track =>
      ks <- at_ kv c ;;
      k <- at_ ks f ;;
      let '(x, y, s) := k in
      track_point kv track (add_measure (new_measure x y s s (Z.to_nat c)) p)
  end.
Fixpoint add_tracks (kv : list (list kp)) (ts : trackmap) (net : network) : res network :=
  match ts with
  | [] => Ok net
  | (_, track) :: ts =>
      p <- track_point kv track (new_point TiePoint) ;;
      add_tracks kv ts (if (0 <? length (pmeasures p))%nat then add_control_point p net else net)
  end.

(** ControlNetworkLoader.cc 391-433: matchMapToCnet. *)
Definition to_cnet (images : list str) (kv : list (list kp)) (pw : pairwise) : res (bool * network) :=
  let net := fold_left (fun net x => fst (add_image_name x net)) images (Net [] [] ImageToImage) in
  match build_tracks pw with
  | [] => Ok (false, net)
  | ts => net <- add_tracks kv ts net ;; Ok (true, net)
  end.

(** ControlNetworkLoader.cc 435-545: build_control_network, without triangulation. *)
Definition build_control_network (shuffle : list Z -> list Z) (images : list str) (files : list file)
    (min_matches : nat) (max_pairwise : Z) : res (bool * network) :=
  '(km, mm) <- load_files shuffle min_matches max_pairwise files (repeat [] (length images), []) ;;
  let km := map (number 0) km in
  pw <- to_mvg mm km [] ;;
  to_cnet images (map (map fst) km) pw.
