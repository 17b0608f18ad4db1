From Verif Require Import Lib.Base MatchIO.Model MatchIO.Spec.
From Coq Require Import List ZArith Lia Bool.
Import ListNotations.
Open Scope Z_scope.

Lemma enc_length k v : length (enc k v) = k.
Proof. revert v; induction k; intros; cbn [enc length]; auto. Qed.

Lemma dec_enc k v : 0 <= v < 256 ^ Z.of_nat k -> dec (enc k v) = v.
Proof.
  revert v; induction k as [|k IH]; intros v Hv.
  - cbn in *. lia.
  - cbn [enc dec]. rewrite IH.
    + pose proof (Z.div_mod v 256). lia.
    + rewrite Nat2Z.inj_succ, Z.pow_succ_r in Hv by lia.
      split; [apply Z.div_pos; lia|].
      apply Z.div_lt_upper_bound; lia.
Qed.

Lemma dec_enc32 v : fits 32 v -> dec (enc 4 v) = v.
Proof. intros; apply dec_enc; exact H. Qed.
Lemma dec_enc64 v : fits 64 v -> dec (enc 8 v) = v.
Proof. intros; apply dec_enc; exact H. Qed.
Lemma dec_enc1 v : fits 1 v -> dec (enc 1 v) = v.
Proof.
  intros H; apply dec_enc. unfold fits in H.
  change (256 ^ Z.of_nat 1) with 256. change (2 ^ 1) with 2 in H. lia.
Qed.

(** Reading what was written. *)
Lemma sread_enc k v old tl :
  dec (enc k v) = v ->
  sread k old (Stream (enc k v ++ tl) true) = (v, Stream tl true).
Proof.
  intros H. unfold sread; cbn [good rest].
  rewrite app_length, enc_length.
  replace (k <=? k + length tl)%nat with true by (symmetry; apply Nat.leb_le; lia).
  rewrite firstn_app, skipn_app, !enc_length, Nat.sub_diag.
  rewrite firstn_all2 by (rewrite enc_length; lia).
  rewrite skipn_all2 by (rewrite enc_length; lia).
  cbn [firstn skipn app]. rewrite app_nil_r, H. reflexivity.
Qed.

(** How a read changes the stream. *)
Lemma sread_good k old f v f' :
  sread k old f = (v, f') ->
  good f' = good f && (k <=? length (rest f))%nat /\
  (good f' = true -> length (rest f') = (length (rest f) - k)%nat).
Proof.
  unfold sread. destruct (good f) eqn:G.
  - destruct (k <=? length (rest f))%nat eqn:E; intros [= <- <-]; cbn [good rest].
    + split; [reflexivity|]. intros _. apply skipn_length.
    + split; [reflexivity|discriminate].
  - intros [= <- <-]. rewrite G. split; [reflexivity|discriminate].
Qed.

Lemma sread_short k old f v f' n :
  sread k old f = (v, f') ->
  (good f = true -> (length (rest f) < n)%nat) ->
  good f' = true -> (length (rest f') < n - k)%nat /\ (k <= length (rest f))%nat.
Proof.
  intros H Hn G. destruct (sread_good _ _ _ _ _ H) as [E L].
  rewrite G in E. symmetry in E. apply andb_true_iff in E as [Gf Ek].
  apply Nat.leb_le in Ek. specialize (L G). specialize (Hn Gf). lia.
Qed.

Lemma read_desc_enc ds tl :
  Forall (fits 32) ds ->
  read_desc (length ds) (Stream (flat_map (enc 4) ds ++ tl) true)
  = (ds, Stream tl true).
Proof.
  induction 1 as [|d ds Hd _ IH]; [reflexivity|].
  cbn [length read_desc flat_map]. rewrite <- app_assoc.
  rewrite sread_enc by (apply dec_enc32; exact Hd). rewrite IH. reflexivity.
Qed.

Lemma read_desc_good n : forall f ds f',
  read_desc n f = (ds, f') ->
  (good f = true -> (length (rest f) < 4 * n)%nat) ->
  n <> 0%nat -> good f' = false.
Proof.
  induction n as [|n IH]; intros f ds f' H Hs Hn; [congruence|].
  cbn [read_desc] in H.
  destruct (sread 4 0 f) as [v f1] eqn:E1.
  destruct (read_desc n f1) as [vs f2] eqn:E2.
  injection H as <- <-.
  destruct n as [|n].
  - cbn [read_desc] in E2. injection E2 as <- <-.
    destruct (sread_good _ _ _ _ _ E1) as [G _]. rewrite G.
    destruct (good f); [|reflexivity]. cbn [andb].
    apply Nat.leb_gt. specialize (Hs eq_refl). lia.
  - eapply IH; [exact E2| |lia].
    intros G1. destruct (sread_short _ _ _ _ _ _ E1 Hs G1). lia.
Qed.

Lemma read_record_written p tl :
  wf_ip p ->
  read_ip_record (Stream (write_ip_record p ++ tl) true) = Ok (p, Stream tl true).
Proof.
  intros (H1 & H2 & H3 & H4 & H5 & H6 & H7 & H8 & H9 & H10 & H11 & H12).
  unfold read_ip_record, write_ip_record. cbn [good negb].
  repeat rewrite <- app_assoc.
  repeat (rewrite sread_enc by (first [apply dec_enc32|apply dec_enc64|apply dec_enc1]; assumption)).
  cbn [good negb]. rewrite Nat2Z.id, read_desc_enc by assumption.
  destruct p; reflexivity.
Qed.

Lemma record_length p : length (write_ip_record p) = record_size p.
Proof.
  unfold write_ip_record, record_size. repeat rewrite app_length.
  repeat rewrite enc_length.
  assert (E : length (flat_map (enc 4) (pdesc p)) = (4 * length (pdesc p))%nat).
  { induction (pdesc p) as [|d ds IH]; [reflexivity|].
    cbn [flat_map]. rewrite app_length, enc_length, IH. cbn [length]. lia. }
  rewrite E. lia.
Qed.

Lemma records_length ps :
  length (flat_map write_ip_record ps) = records_size ps.
Proof.
  induction ps as [|p ps IH]; [reflexivity|].
  cbn [flat_map]. rewrite app_length, IH, record_length. reflexivity.
Qed.

Lemma records_size_cons p ps :
  records_size (p :: ps) = (record_size p + records_size ps)%nat.
Proof. reflexivity. Qed.

Lemma records_size_app ps qs :
  records_size (ps ++ qs) = (records_size ps + records_size qs)%nat.
Proof.
  induction ps as [|p ps IH]; [reflexivity|].
  cbn [app]. rewrite !records_size_cons. lia.
Qed.

Lemma read_records_written ps tl :
  Forall wf_ip ps ->
  read_records (length ps) (Stream (flat_map write_ip_record ps ++ tl) true)
  = Ok (ps, Stream tl true).
Proof.
  induction 1 as [|p ps Hp _ IH]; [reflexivity|].
  cbn [length read_records flat_map]. rewrite <- app_assoc.
  rewrite read_record_written by assumption. cbn [bind].
  rewrite IH. reflexivity.
Qed.

Lemma read_records_app n m f :
  read_records (n + m) f =
  ('(ps, f) <- read_records n f ;; '(qs, f) <- read_records m f ;; Ok (ps ++ qs, f)).
Proof.
  revert f; induction n as [|n IH]; intros f.
  - cbn [Nat.add read_records bind]. destruct (read_records m f) as [[qs f']| |]; reflexivity.
  - cbn [Nat.add read_records]. destruct (read_ip_record f) as [[p f1]| |]; cbn [bind]; try reflexivity.
    rewrite IH. destruct (read_records n f1) as [[ps f2]| |]; cbn [bind]; try reflexivity.
    destruct (read_records m f2) as [[qs f3]| |]; reflexivity.
Qed.

(** Reading a record cut short leaves the stream failed. *)
Lemma read_record_cut p n :
  wf_ip p -> (n < record_size p)%nat ->
  exists q f, read_ip_record (Stream (firstn n (write_ip_record p)) true) = Ok (q, f)
              /\ good f = false.
Proof.
  intros W Hn.
  destruct (Nat.ltb_spec n 45) as [L|L].
  - unfold read_ip_record. cbn [good negb].
    set (f0 := Stream _ true).
    assert (H0 : good f0 = true -> (length (rest f0) < 45)%nat).
    { intros _. subst f0. cbn [rest]. rewrite firstn_length. lia. }
    clearbody f0.
    repeat match goal with
    | |- context [let (_, _) := sread ?k ?o ?f in _] =>
        lazymatch goal with
        | H : good f = true -> (length (rest f) < ?n)%nat |- _ =>
            let E := fresh "E" in let v := fresh "v" in let g := fresh "g" in
            destruct (sread k o f) as [v g] eqn:E;
            assert (good g = true -> (length (rest g) < n - k)%nat)
              by (intros G; exact (proj1 (sread_short _ _ _ _ _ _ E H G)));
            clear E H
        end
    end.
    match goal with |- context [negb (good ?f)] => destruct (good f) eqn:G end.
    + match goal with H : true = true -> _ |- _ => specialize (H eq_refl); lia end.
    + cbn [negb]. do 2 eexists. split; [reflexivity|exact G].
  - destruct W as (H1 & H2 & H3 & H4 & H5 & H6 & H7 & H8 & H9 & H10 & H11 & H12).
    unfold read_ip_record. cbn [good negb].
    assert (E : exists h t, write_ip_record p = h ++ t /\ length h = 45%nat /\
        t = flat_map (enc 4) (pdesc p) /\
        h = enc 4 (px p) ++ enc 4 (py p) ++ enc 4 (pix p) ++ enc 4 (piy p) ++
            enc 4 (porient p) ++ enc 4 (pscale p) ++ enc 4 (pinterest p) ++
            enc 1 (ppolarity p) ++ enc 4 (poctave p) ++ enc 4 (pscale_lvl p) ++
            enc 8 (Z.of_nat (length (pdesc p)))).
    { do 2 eexists. split; [|split; [|split; reflexivity]].
      - unfold write_ip_record. repeat rewrite <- app_assoc. reflexivity.
      - repeat rewrite app_length. repeat rewrite enc_length. reflexivity. }
    destruct E as (h & t & E & Lh & Et & Eh).
    rewrite E, firstn_app, Lh, firstn_all2 by lia.
    rewrite Eh. repeat rewrite <- app_assoc.
    repeat (rewrite sread_enc by (first [apply dec_enc32|apply dec_enc64|apply dec_enc1]; assumption)).
    cbn [good negb].
    destruct (read_desc _ _) as [ds f] eqn:R.
    do 2 eexists. split; [reflexivity|].
    unfold record_size in Hn.
    eapply read_desc_good; [exact R| |].
    + intros _. cbn [rest]. rewrite firstn_length, Nat2Z.id. lia.
    + rewrite Nat2Z.id. lia.
Qed.

Lemma read_record_failed f : good f = false -> read_ip_record f = Throw IOErr.
Proof. intros G. unfold read_ip_record. rewrite G. reflexivity. Qed.

(** A run of records cut short inside the last one. *)
Lemma read_records_cut_last ps p n :
  Forall wf_ip ps -> wf_ip p ->
  (records_size ps <= n < records_size ps + record_size p)%nat ->
  exists q f,
    read_records (length ps + 1)
      (Stream (firstn n (flat_map write_ip_record (ps ++ [p]))) true)
    = Ok (ps ++ [q], f) /\ good f = false /\
    read_ip_record (Stream (firstn (n - records_size ps) (write_ip_record p)) true) = Ok (q, f).
Proof.
  intros W Wp Hn.
  destruct (read_record_cut p (n - records_size ps) Wp) as (q & f & R & G); [lia|].
  exists q, f. split; [|split; [exact G|exact R]].
  rewrite flat_map_app. cbn [flat_map]. rewrite app_nil_r.
  rewrite firstn_app, records_length, firstn_all2 by (rewrite records_length; lia).
  rewrite read_records_app, read_records_written by assumption.
  cbn [bind read_records]. rewrite R. reflexivity.
Qed.

(** Every cut position of a run of records falls inside one record. *)
Lemma cut_position ps : forall n, (n < records_size ps)%nat ->
  exists a p b, ps = a ++ p :: b /\
    (records_size a <= n < records_size a + record_size p)%nat.
Proof.
  induction ps as [|p ps IH]; intros n Hn.
  - cbn in Hn. lia.
  - rewrite records_size_cons in Hn.
    destruct (Nat.ltb_spec n (record_size p)) as [L|L].
    + exists [], p, ps. split; [reflexivity|]. cbn [records_size fold_right]. lia.
    + destruct (IH (n - record_size p)%nat) as (a & q & b & E & R); [lia|].
      exists (p :: a), q, b. split; [rewrite E; reflexivity|].
      rewrite records_size_cons. lia.
Qed.

(** A run of records cut short before the last one, and anything after that
    needs one more record. *)
Lemma read_records_cut ps n m :
  Forall wf_ip ps -> (n < records_size ps)%nat -> (0 < m)%nat ->
  read_records (length ps + m)
    (Stream (firstn n (flat_map write_ip_record ps)) true) = Throw IOErr.
Proof.
  intros W Hn Hm.
  destruct (cut_position ps n Hn) as (a & p & b & E & R). subst ps.
  apply Forall_app in W as [Wa Wb].
  pose proof (Forall_inv Wb) as Wp.
  destruct (read_records_cut_last a p n Wa Wp R) as (q & f & Q & G & _).
  rewrite app_length. cbn [length].
  replace (length a + S (length b) + m)%nat with ((length a + 1) + (S (length b + m - 1)))%nat by lia.
  rewrite read_records_app.
  replace (firstn n (flat_map write_ip_record (a ++ p :: b)))
    with (firstn n (flat_map write_ip_record (a ++ [p]))).
  2:{ rewrite !flat_map_app. cbn [flat_map]. rewrite app_nil_r.
      rewrite !firstn_app. rewrite !records_length.
      rewrite record_length.
      replace (n - records_size a - record_size p)%nat with 0%nat by lia.
      cbn [firstn]. rewrite app_nil_r. reflexivity. }
  rewrite Q. cbn [bind read_records].
  rewrite read_record_failed by exact G. reflexivity.
Qed.

(** ** Interest point files *)

Lemma ip_round_trip ps junk :
  wf_ips ps ->
  read_binary_ip_file (Some (write_binary_ip_file ps ++ junk)) = Ok ps.
Proof.
  intros [W L]. unfold read_binary_ip_file, write_binary_ip_file.
  rewrite <- app_assoc, sread_enc by (apply dec_enc64; exact L).
  cbn [good negb]. rewrite Nat2Z.id, read_records_written by assumption.
  reflexivity.
Qed.

Lemma ip_file_length ps :
  length (write_binary_ip_file ps) = (8 + records_size ps)%nat.
Proof.
  unfold write_binary_ip_file. rewrite app_length, enc_length, records_length. reflexivity.
Qed.

Lemma ip_cut_header ps n :
  (n < 8)%nat ->
  read_binary_ip_file (Some (firstn n (write_binary_ip_file ps))) = Ok [].
Proof.
  intros Hn. unfold read_binary_ip_file.
  destruct (sread 8 0 _) as [v f] eqn:E.
  destruct (sread_good _ _ _ _ _ E) as [G _].
  rewrite G. cbn [good rest andb]. rewrite firstn_length.
  replace (8 <=? _)%nat with false by (symmetry; apply Nat.leb_gt; lia).
  reflexivity.
Qed.

Lemma ip_cut_body ps n :
  wf_ips ps -> (8 <= n)%nat ->
  read_binary_ip_file (Some (firstn n (write_binary_ip_file ps))) =
  ('(qs, _) <- read_records (length ps)
     (Stream (firstn (n - 8) (flat_map write_ip_record ps)) true) ;; Ok qs).
Proof.
  intros [W L] Hn. unfold read_binary_ip_file, write_binary_ip_file.
  rewrite firstn_app, enc_length, firstn_all2 by (rewrite enc_length; lia).
  rewrite sread_enc by (apply dec_enc64; exact L).
  cbn [good negb]. rewrite Nat2Z.id. reflexivity.
Qed.

Lemma ip_cut_detected ps p n :
  wf_ips (ps ++ [p]) ->
  (8 <= n < 8 + records_size ps)%nat ->
  read_binary_ip_file (Some (firstn n (write_binary_ip_file (ps ++ [p])))) = Throw IOErr.
Proof.
  intros W Hn. rewrite ip_cut_body by (auto; lia).
  rewrite app_length. cbn [length].
  destruct W as [W _]. apply Forall_app in W as [W _].
  replace (firstn (n - 8) (flat_map write_ip_record (ps ++ [p])))
    with (firstn (n - 8) (flat_map write_ip_record ps)).
  - rewrite read_records_cut by (auto; lia). reflexivity.
  - rewrite flat_map_app, firstn_app, records_length.
    replace (n - 8 - records_size ps)%nat with 0%nat by lia.
    cbn [firstn]. rewrite app_nil_r. reflexivity.
Qed.

Lemma ip_cut_last ps p n :
  wf_ips (ps ++ [p]) ->
  (8 + records_size ps <= n < 8 + records_size ps + record_size p)%nat ->
  exists q f,
    read_binary_ip_file (Some (firstn n (write_binary_ip_file (ps ++ [p])))) = Ok (ps ++ [q]) /\
    read_ip_record (Stream (firstn (n - 8 - records_size ps) (write_ip_record p)) true) = Ok (q, f).
Proof.
  intros W Hn. rewrite ip_cut_body by (auto; lia).
  rewrite app_length. cbn [length].
  destruct W as [W _]. apply Forall_app in W as [W Wp].
  destruct (read_records_cut_last ps p (n - 8) W (Forall_inv Wp)) as (q & f & E & _ & R); [lia|].
  exists q, f. rewrite E. split; [reflexivity|exact R].
Qed.

(** ** Match files *)

Lemma match_round_trip ps qs junk :
  wf_ips ps -> wf_ips qs -> length ps = length qs ->
  read_binary_match_file (Some (fst (write_binary_match_file ps qs) ++ junk)) = Ok (ps, qs).
Proof.
  intros [W L] [W' L'] E. unfold read_binary_match_file, write_binary_match_file.
  rewrite E, Z.eqb_refl. cbn [negb fst]. repeat rewrite <- app_assoc.
  rewrite !sread_enc by (apply dec_enc64; exact L'). cbn [good negb].
  rewrite Z.eqb_refl. cbn [good negb]. rewrite !Nat2Z.id.
  rewrite <- E at 1. rewrite read_records_written by assumption. cbn [bind].
  rewrite read_records_written by assumption. reflexivity.
Qed.

Lemma match_file_length ps qs :
  length ps = length qs ->
  length (fst (write_binary_match_file ps qs)) = (16 + records_size ps + records_size qs)%nat.
Proof.
  intros E. unfold write_binary_match_file. rewrite E, Z.eqb_refl. cbn [negb fst].
  rewrite !app_length, !enc_length, !records_length. lia.
Qed.

Lemma match_cut_body ps qs n :
  wf_ips ps -> wf_ips qs -> length ps = length qs -> (16 <= n)%nat ->
  read_binary_match_file (Some (firstn n (fst (write_binary_match_file ps qs)))) =
  ('(as_, f) <- read_records (length ps)
     (Stream (firstn (n - 16) (flat_map write_ip_record (ps ++ qs))) true) ;;
   '(bs, _) <- read_records (length qs) f ;; Ok (as_, bs)).
Proof.
  intros [W L] [W' L'] E Hn. unfold read_binary_match_file, write_binary_match_file.
  rewrite E, Z.eqb_refl. cbn [negb fst].
  rewrite firstn_app, enc_length, firstn_all2 by (rewrite enc_length; lia).
  rewrite firstn_app, enc_length, firstn_all2 by (rewrite enc_length; lia).
  rewrite sread_enc by (apply dec_enc64; exact L').
  cbn [good negb]. rewrite sread_enc by (apply dec_enc64; exact L').
  rewrite Z.eqb_refl. cbn [good negb]. rewrite !Nat2Z.id.
  rewrite flat_map_app. replace (n - 8 - 8)%nat with (n - 16)%nat by lia. reflexivity.
Qed.

Lemma read_records_split n m f :
  ('(ps, f) <- read_records n f ;; '(qs, _) <- read_records m f ;; Ok (ps ++ qs)) =
  ('(ps, _) <- read_records (n + m) f ;; Ok ps).
Proof.
  rewrite read_records_app.
  destruct (read_records n f) as [[ps f1]| |]; cbn [bind]; try reflexivity.
  destruct (read_records m f1) as [[qs f2]| |]; reflexivity.
Qed.

Lemma read_records_len n : forall f ps f',
  read_records n f = Ok (ps, f') -> length ps = n.
Proof.
  induction n as [|n IH]; intros f ps f' H; cbn [read_records] in H.
  - injection H as <- _. reflexivity.
  - destruct (read_ip_record f) as [[p f1]| |]; cbn [bind] in H; try discriminate.
    destruct (read_records n f1) as [[qs f2]| |] eqn:E; cbn [bind] in H; try discriminate.
    injection H as <- _. cbn [length]. f_equal. exact (IH _ _ _ E).
Qed.

Lemma match_cut_short ps qs n :
  length ps = length qs -> (n < 8)%nat ->
  read_binary_match_file (Some (firstn n (fst (write_binary_match_file ps qs)))) = Throw IOErr.
Proof.
  intros E Hn. unfold read_binary_match_file.
  destruct (sread 8 0 _) as [v f] eqn:R.
  destruct (sread_good _ _ _ _ _ R) as [G _].
  rewrite G. cbn [good rest andb]. rewrite firstn_length.
  replace (8 <=? _)%nat with false by (symmetry; apply Nat.leb_gt; lia).
  reflexivity.
Qed.

Lemma match_cut_header ps qs n :
  wf_ips ps -> length ps = length qs -> (8 <= n < 16)%nat ->
  read_binary_match_file (Some (firstn n (fst (write_binary_match_file ps qs)))) = Throw IOErr \/
  read_binary_match_file (Some (firstn n (fst (write_binary_match_file ps qs)))) = Ok ([], []).
Proof.
  intros [W L] E Hn. unfold read_binary_match_file, write_binary_match_file.
  rewrite <- E, Z.eqb_refl. cbn [negb fst].
  rewrite firstn_app, enc_length, firstn_all2 by (rewrite enc_length; lia).
  rewrite sread_enc by (apply dec_enc64; exact L). cbn [good negb].
  destruct (sread 8 0 _) as [v f] eqn:R.
  destruct (sread_good _ _ _ _ _ R) as [G _].
  rewrite G. cbn [good rest andb]. rewrite firstn_length.
  replace (8 <=? _)%nat with false by (symmetry; apply Nat.leb_gt; lia).
  cbn [negb]. destruct (_ =? v); cbn [negb]; auto.
Qed.

Lemma match_cut_detected ps qs q n :
  wf_ips ps -> wf_ips (qs ++ [q]) -> length ps = length (qs ++ [q]) ->
  (16 <= n < 16 + records_size ps + records_size qs)%nat ->
  read_binary_match_file (Some (firstn n (fst (write_binary_match_file ps (qs ++ [q])))))
  = Throw IOErr.
Proof.
  intros W W' E Hn. rewrite match_cut_body by (auto; lia).
  assert (T : read_records (length ps + length (qs ++ [q]))
                (Stream (firstn (n - 16) (flat_map write_ip_record (ps ++ qs ++ [q]))) true)
              = Throw IOErr).
  { rewrite !app_length. cbn [length].
    replace (length ps + (length qs + 1))%nat with (length (ps ++ qs) + 1)%nat
      by (rewrite app_length; lia).
    rewrite app_assoc.
    replace (firstn (n - 16) (flat_map write_ip_record ((ps ++ qs) ++ [q])))
      with (firstn (n - 16) (flat_map write_ip_record (ps ++ qs))).
    - apply read_records_cut; [|rewrite records_size_app; lia|lia].
      destruct W as [W _], W' as [W' _]. apply Forall_app in W' as [W' _].
      apply Forall_app; auto.
    - rewrite (flat_map_app _ (ps ++ qs) [q]), firstn_app, records_length, records_size_app.
      replace (n - 16 - (records_size ps + records_size qs))%nat with 0%nat by lia.
      cbn [firstn]. rewrite app_nil_r. reflexivity. }
  rewrite read_records_app in T.
  destruct (read_records (length ps) _) as [[as_ f]| |]; cbn [bind] in T |- *;
    try discriminate; try (injection T as ->; reflexivity).
  destruct (read_records (length (qs ++ [q])) f) as [[bs g]| |]; cbn [bind] in T |- *;
    try discriminate; try (injection T as ->; reflexivity).
Qed.

Lemma match_cut_last ps qs q n :
  wf_ips ps -> wf_ips (qs ++ [q]) -> length ps = length (qs ++ [q]) ->
  (16 + records_size ps + records_size qs <= n
   < 16 + records_size ps + records_size qs + record_size q)%nat ->
  exists q' f,
    read_binary_match_file (Some (firstn n (fst (write_binary_match_file ps (qs ++ [q])))))
    = Ok (ps, qs ++ [q']) /\
    read_ip_record (Stream (firstn (n - 16 - records_size (ps ++ qs)) (write_ip_record q)) true)
    = Ok (q', f).
Proof.
  intros W W' E Hn. rewrite match_cut_body by (auto; lia).
  destruct W as [W _], W' as [W' _].
  pose proof (proj1 (proj1 (Forall_app _ _ _) W')) as Wq.
  pose proof (Forall_inv (proj2 (proj1 (Forall_app _ _ _) W'))) as Wl.
  destruct (read_records_cut_last qs q (n - 16 - records_size ps) Wq Wl) as (q' & f & R & _ & Q); [lia|].
  exists q', f. split.
  - rewrite flat_map_app, firstn_app, records_length, firstn_all2 by (rewrite records_length; lia).
    rewrite read_records_written by assumption. cbn [bind].
    rewrite app_length. cbn [length]. rewrite R. reflexivity.
  - rewrite records_size_app, Nat.sub_add_distr. exact Q.
Qed.
