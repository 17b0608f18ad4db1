(** C31: interest point and match files. *)
From Verif Require Import Lib.Base MatchIO.Model MatchIO.Spec MatchIO.Proofs.
From Coq Require Import List ZArith Lia.
Import ListNotations.
Open Scope Z_scope.

(** Reading a written interest point file gives back the points, bit for bit,
    whatever follows them in the file. *)
Theorem ip_file_round_trip ps junk :
  wf_ips ps ->
  read_binary_ip_file (Some (write_binary_ip_file ps ++ junk)) = Ok ps.
Proof. apply ip_round_trip. Qed.

(** Reading a written match file gives back both lists. *)
Theorem match_file_round_trip ps qs junk :
  wf_ips ps -> wf_ips qs -> length ps = length qs ->
  snd (write_binary_match_file ps qs) = Ok tt /\
  read_binary_match_file (Some (fst (write_binary_match_file ps qs) ++ junk)) = Ok (ps, qs).
Proof.
  intros W W' E. split; [|apply match_round_trip; assumption].
  unfold write_binary_match_file. rewrite E, Z.eqb_refl. reflexivity.
Qed.

(** Lists of different lengths are refused, and a file that was there before is
    lost; reading it afterwards is an error. *)
Theorem match_file_unequal ps qs :
  length ps <> length qs ->
  exists bytes, write_binary_match_file ps qs = (bytes, Throw IOErr) /\
                read_binary_match_file (Some bytes) = Throw IOErr.
Proof.
  intros E. exists []. split; [|reflexivity].
  unfold write_binary_match_file.
  replace (Z.of_nat (length ps) =? Z.of_nat (length qs)) with false; [reflexivity|].
  symmetry. apply Z.eqb_neq. lia.
Qed.

(** Different point lists give different files. *)
Theorem ip_file_injective ps qs :
  wf_ips ps -> wf_ips qs ->
  write_binary_ip_file ps = write_binary_ip_file qs -> ps = qs.
Proof.
  intros W W' E. pose proof (ip_round_trip ps [] W) as A.
  pose proof (ip_round_trip qs [] W') as B. rewrite E in A. congruence.
Qed.

(** A file cut short anywhere after its header and before its last record is
    rejected. *)
Theorem ip_file_cut_detected ps p n :
  wf_ips (ps ++ [p]) ->
  (8 <= n < 8 + records_size ps)%nat ->
  read_binary_ip_file (Some (firstn n (write_binary_ip_file (ps ++ [p])))) = Throw IOErr.
Proof. apply ip_cut_detected. Qed.

Theorem match_file_cut_detected ps qs q n :
  wf_ips ps -> wf_ips (qs ++ [q]) -> length ps = length (qs ++ [q]) ->
  (n < 8 \/ 16 <= n < 16 + records_size ps + records_size qs)%nat ->
  read_binary_match_file (Some (firstn n (fst (write_binary_match_file ps (qs ++ [q])))))
  = Throw IOErr.
Proof.
  intros W W' E [Hn|Hn].
  - apply match_cut_short; assumption.
  - apply match_cut_detected; assumption.
Qed.

(** A cut inside the header of a match file is either rejected or read as a
    file without matches; it never yields a wrong point. *)
Theorem match_file_cut_header ps qs n :
  wf_ips ps -> length ps = length qs -> (8 <= n < 16)%nat ->
  let r := read_binary_match_file (Some (firstn n (fst (write_binary_match_file ps qs)))) in
  r = Throw IOErr \/ r = Ok ([], []).
Proof. apply match_cut_header. Qed.

(** The claim that every truncation is noticed is false in general.  For every
    list of points, a file cut anywhere in its last record is accepted: the
    caller gets all the points but with the last one made up from the bytes
    that are there and from defaults.  When the last record is missing
    entirely, the caller gets a default point instead of it. *)
Theorem ip_file_cut_refuted ps p n :
  wf_ips (ps ++ [p]) ->
  (8 + records_size ps <= n < 8 + records_size ps + record_size p)%nat ->
  (exists q, read_binary_ip_file (Some (firstn n (write_binary_ip_file (ps ++ [p]))))
             = Ok (ps ++ [q])) /\
  read_binary_ip_file (Some (firstn (8 + records_size ps) (write_binary_ip_file (ps ++ [p]))))
  = Ok (ps ++ [default_ip]).
Proof.
  intros W Hn. split.
  - destruct (ip_cut_last ps p n W Hn) as (q & f & E & _). exists q; exact E.
  - destruct (ip_cut_last ps p (8 + records_size ps) W) as (q & f & E & R).
    { unfold record_size. lia. }
    replace (8 + records_size ps - 8 - records_size ps)%nat with 0%nat in R by lia.
    cbn [firstn] in R. rewrite E.
    vm_compute in R. injection R as <- _. reflexivity.
Qed.

(** The same for match files. *)
Theorem match_file_cut_refuted ps qs q n :
  wf_ips ps -> wf_ips (qs ++ [q]) -> length ps = length (qs ++ [q]) ->
  (16 + records_size ps + records_size qs <= n
   < 16 + records_size ps + records_size qs + record_size q)%nat ->
  exists q', read_binary_match_file (Some (firstn n (fst (write_binary_match_file ps (qs ++ [q])))))
             = Ok (ps, qs ++ [q']).
Proof.
  intros W W' E Hn.
  destruct (match_cut_last ps qs q n W W' E Hn) as (q' & f & R & _). exists q'; exact R.
Qed.

(** A file cut within its eight byte header reads as an empty list. *)
Theorem ip_file_cut_header_refuted ps n :
  (n < 8)%nat ->
  read_binary_ip_file (Some (firstn n (write_binary_ip_file ps))) = Ok [].
Proof. apply ip_cut_header. Qed.

(** Non-vacuity: points with and without descriptors, a cut after the first
    record of two, and a cut that turns the descriptor of the last point into
    another one. *)
Definition ex_p : ip := Ip 1084227584 3225419776 5 4294967294 7 1065353216 9 1 2 3 [17; 4294967295].
Definition ex_q : ip := Ip 1 2 3 4 5 6 7 0 8 9 [258].

Example ex_wf : wf_ips [ex_p; ex_q].
Proof.
  split; [repeat apply Forall_cons; try apply Forall_nil|];
    unfold wf_ip, fits, ex_p, ex_q; cbn [px py pix piy porient pscale pinterest ppolarity
    poctave pscale_lvl pdesc length];
    repeat apply conj; try lia; repeat apply Forall_cons; try apply Forall_nil; lia.
Qed.

Example ex_sizes : records_size [ex_p] = 53%nat /\ record_size ex_q = 49%nat /\
  length (write_binary_ip_file [ex_p; ex_q]) = 110%nat.
Proof. repeat split. Qed.

Example ex_read : read_binary_ip_file (Some (write_binary_ip_file [ex_p; ex_q] ++ [1; 2; 3]))
                  = Ok [ex_p; ex_q].
Proof. vm_compute. reflexivity. Qed.

Example ex_cut_first : read_binary_ip_file
  (Some (firstn 60 (write_binary_ip_file [ex_p; ex_q]))) = Throw IOErr.
Proof. vm_compute. reflexivity. Qed.

Example ex_cut_last : read_binary_ip_file
  (Some (firstn 107 (write_binary_ip_file [ex_p; ex_q])))
  = Ok [ex_p; Ip 1 2 3 4 5 6 7 0 8 9 [2]].
Proof. vm_compute. reflexivity. Qed.

Example ex_match : read_binary_match_file (Some (fst (write_binary_match_file [ex_p; ex_q] [ex_q; ex_p])))
                   = Ok ([ex_p; ex_q], [ex_q; ex_p]).
Proof. vm_compute. reflexivity. Qed.

Print Assumptions ip_file_round_trip.
Print Assumptions match_file_round_trip.
Print Assumptions match_file_unequal.
Print Assumptions ip_file_injective.
Print Assumptions ip_file_cut_detected.
Print Assumptions match_file_cut_detected.
Print Assumptions match_file_cut_header.
Print Assumptions ip_file_cut_refuted.
Print Assumptions match_file_cut_refuted.
Print Assumptions ip_file_cut_header_refuted.
