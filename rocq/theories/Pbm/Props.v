(* Theorems about Netpbm files. *)
From Coq Require Import ZArith List Bool Lia.
From Verif Require Import Lib.Base IBuf.Model IBuf.Spec IBuf.Mem IBuf.Proofs IBuf.Loops IBuf.More IBuf.Laws IBuf.Trips IBuf.Props.
From Verif Require Import Pbm.Model Pbm.Spec Pbm.Proofs.
Import ListNotations.
Local Open Scope Z_scope.

(* C56.  Opening a file understands every header of the format: white space
   and comments of up to 1024 characters between its parts, numbers with any
   number of leading zeros, one white space before the data. *)
Theorem pbm_open_header : forall m w h mx hd data resc j1 j2 j3, header m w h mx hd ->
  w <= i32_max -> h <= i32_max -> 1 <= mx <= 255 ->
  exists r, open (Some (hd ++ data)) resc j1 j2 j3 = Ok r /\
    magic r = m /\ max_value r = mx /\ fmt r = file_format m w h true /\
    position r = Z.of_nat (length hd) /\ rescale r = resc.
Proof. intros. eexists. split; [apply open_header; eauto|]. repeat split. Qed.

Lemma get_i32_cases s : (exists s' v, forall old, get_i32 s old = (s', v)) \/
  (exists s', good s' = false /\ forall old, get_i32 s old = (s', old)).
Proof.
  unfold get_i32. destruct (sentry s) as [s' ok] eqn:E. destruct ok.
  - left. destruct (get_sign (rest s')) as [neg l]. destruct (span isdigit l) as [ds l'].
    destruct ds as [|d ds]; eauto.
    destruct (_ <? i32_min); eauto. destruct (i32_max <? _); eauto.
  - right. exists s'. split; auto. unfold sentry in E. destruct (good s).
    + destruct (skip_sp (rest s)); [|discriminate]. injection E as <-. reflexivity.
    + injection E as <-. unfold good, set_fail. cbn. apply andb_false_r.
Qed.
Lemma set_fail_bad s : good (set_fail s) = false.
Proof. unfold good, set_fail. cbn. apply andb_false_r. Qed.
Lemma get_i32_bad s old : good s = false -> exists s', good s' = false /\ get_i32 s old = (s', old).
Proof.
  intros B. unfold get_i32, sentry. rewrite B. exists (set_fail s). split; auto using set_fail_bad.
Qed.
Lemma skip_any_bad s : good s = false -> good (skip_any_comments s) = false.
Proof.
  intros B. unfold skip_any_comments.
  assert (E1 : forall n, skip_spaces (S n) s = set_fail s).
  { intros n. cbn [skip_spaces]. unfold peek. rewrite B. reflexivity. }
  assert (E2 : forall n, skip_lines (S n) (set_fail s) = set_fail (set_fail s)).
  { intros n. cbn [skip_lines]. unfold peek. rewrite set_fail_bad. reflexivity. }
  rewrite E1, E2. apply set_fail_bad.
Qed.
Lemma get_bad s : good s = false -> snd (get s) = -1.
Proof. intros B. unfold get. rewrite B. reflexivity. Qed.

Lemma skip_sp_split l : exists g, l = g ++ skip_sp l /\ Forall space g.
Proof.
  induction l as [|c l (g & E & G)]; [exists []; auto|]. cbn [skip_sp].
  destruct (isspace c) eqn:S; [|exists []; auto].
  exists (c :: g). apply isspace_spec in S. split; [cbn; congruence|auto].
Qed.
Lemma span_split p : forall l a b, span p l = (a, b) -> l = a ++ b /\ Forall (fun c => p c = true) a /\
  match b with [] => True | c :: _ => p c = false end.
Proof.
  induction l as [|c l IH]; intros a b H; cbn [span] in H.
  - injection H as <- <-. auto.
  - destruct (p c) eqn:P.
    + destruct (span p l) as [a' b'] eqn:S. injection H as <- <-. destruct (IH a' b' eq_refl) as (E & F & B).
      split; [cbn; congruence|]. auto.
    + injection H as <- <-. auto.
Qed.
Lemma skip_sp_length l : (length (skip_sp l) <= length l)%nat.
Proof. induction l as [|c l IH]; cbn [skip_sp length]; auto. destruct (isspace c); cbn [length]; lia. Qed.
Lemma sentry_length s : (length (rest (fst (sentry s))) <= length (rest s))%nat.
Proof.
  unfold sentry. destruct (good s); [|cbn; lia]. pose proof (skip_sp_length (rest s)).
  destruct (skip_sp (rest s)); cbn in *; lia.
Qed.
Lemma word_split bytes s w : get_word (mks bytes false false) [] = (s, w) ->
  (w <> [] -> exists g, Forall space g /\ bytes = g ++ w ++ rest s /\
     (rest s = [] \/ exists c l, rest s = c :: l /\ space c)) /\ (length (rest s) <= length bytes)%nat.
Proof.
  unfold get_word. intros H. pose proof (sentry_length (mks bytes false false)) as SL. cbn [rest] in SL.
  unfold sentry, good in *. cbn [eofb failb negb andb rest] in *.
  destruct (skip_sp_split bytes) as (g & E & G).
  destruct (skip_sp bytes) as [|c l] eqn:S.
  - injection H as <- <-. cbn [rest length]. split; [congruence|lia].
  - cbn [rest fst] in *. destruct (span (fun c0 => negb (isspace c0)) (c :: l)) as [a b] eqn:P.
    injection H as <- <-. cbn [rest]. apply span_split in P as (P1 & P2 & P3). split.
    + intros _. exists g. split; auto. split; [congruence|].
      destruct b as [|x b]; auto. right. exists x, b. split; auto. apply isspace_spec.
      destruct (isspace x); auto; discriminate.
    + rewrite P1, app_length in SL. lia.
Qed.
Lemma word_found g m l : Forall space g -> 1 <= m <= 6 -> (l = [] \/ exists c l', l = c :: l' /\ space c) ->
  get_word (mks (g ++ [80; 48 + m] ++ l) false false) [] = (mks l (at_end l) false, [80; 48 + m]).
Proof.
  intros G M L. unfold get_word. rewrite sentry_ok; [|auto|cbn; unfold space; lia]. cbn [rest].
  rewrite span_ok; [reflexivity| |].
  - repeat constructor; rewrite isspace_no; auto; unfold space; lia.
  - destruct L as [->|(c & l' & -> & S)]; auto. apply isspace_spec in S. rewrite S. reflexivity.
Qed.
Lemma magic_word w m : magic_of w = Some m -> w = [80; 48 + m] /\ 1 <= m <= 6.
Proof.
  unfold magic_of. destruct w as [|p [|d [|x w]]]; try discriminate.
  destruct (Z.eqb_spec p 80) as [->|]; [|discriminate].
  destruct (Z.leb_spec 49 d), (Z.leb_spec d 54); try discriminate. cbn [andb].
  intros [= <-]. split; [repeat f_equal; lia|lia].
Qed.
Lemma get_i32_length s old : (length (rest (fst (get_i32 s old))) <= length (rest s))%nat.
Proof.
  unfold get_i32. pose proof (sentry_length s) as SL. destruct (sentry s) as [s' ok]. cbn [fst] in SL.
  destruct ok; [|exact SL].
  assert (GS : (length (snd (get_sign (rest s'))) <= length (rest s'))%nat).
  { unfold get_sign. destruct (rest s') as [|c l]; [auto|].
    repeat match goal with |- context [match ?x with _ => _ end] => destruct x end; cbn [snd length]; lia. }
  destruct (get_sign (rest s')) as [neg l]. cbn [snd] in GS.
  destruct (span isdigit l) as [ds l'] eqn:SP. apply span_split in SP as (E & _ & _).
  assert (LL : (length l' <= length l)%nat) by (rewrite E, app_length; lia).
  destruct ds; [cbn [fst rest]; lia|].
  destruct (_ <? i32_min); [cbn [fst rest]; lia|]. destruct (i32_max <? _); cbn [fst rest]; lia.
Qed.
Lemma get_i32_range s old : i32_ok old -> i32_ok (snd (get_i32 s old)).
Proof.
  intros O. unfold get_i32. destruct (sentry s) as [s' ok]. destruct ok; [|exact O].
  destruct (get_sign (rest s')) as [neg l]. destruct (span isdigit l) as [ds l'].
  destruct ds; [cbn; unfold i32_ok, i32_min, i32_max; lia|].
  set (v := if neg : bool then _ else _). clearbody v.
  destruct (Z.ltb_spec v i32_min); [cbn; unfold i32_ok, i32_min, i32_max; lia|].
  destruct (Z.ltb_spec i32_max v); cbn [snd]; unfold i32_ok; [unfold i32_min, i32_max; lia|lia].
Qed.
Lemma get_length s : (length (rest (fst (get s))) <= length (rest s))%nat.
Proof. unfold get. destruct (good s); [destruct (rest s)|]; cbn; lia. Qed.
Lemma peek_length s : (length (rest (fst (peek s))) <= length (rest s))%nat.
Proof. unfold peek. destruct (good s); [destruct (rest s) eqn:E|]; cbn; rewrite ?E; cbn; lia. Qed.
Lemma ignore1_length s : (length (rest (ignore1 s)) <= length (rest s))%nat.
Proof. unfold ignore1. destruct (good s); [destruct (rest s)|]; cbn; lia. Qed.
Lemma drop_line_length n : forall l, (length (fst (drop_line n l)) <= length l)%nat.
Proof.
  induction n as [|n IH]; intros l; cbn [drop_line]; [cbn; lia|]. destruct l as [|c l]; [cbn; lia|].
  destruct (c =? 10); [cbn; lia|]. specialize (IH l). cbn [length]. lia.
Qed.
Lemma skip_spaces_length n : forall s, (length (rest (skip_spaces n s)) <= length (rest s))%nat.
Proof.
  induction n as [|n IH]; intros s; cbn [skip_spaces]; [lia|]. pose proof (peek_length s) as P.
  destruct (peek s) as [s' c]. cbn [fst] in P. destruct (isspace c); [|lia].
  pose proof (ignore1_length s'). pose proof (IH (ignore1 s')). lia.
Qed.
Lemma skip_lines_length n : forall s, (length (rest (skip_lines n s)) <= length (rest s))%nat.
Proof.
  induction n as [|n IH]; intros s; [cbn [skip_lines]; lia|].
  change (skip_lines (S n) s) with (let (s, c) := peek s in
      if c =? 35 then
        let s := ignore_line 1024 s in
        skip_lines n (skip_spaces (S (length (rest s))) s)
      else s).
  pose proof (peek_length s) as P.
  destruct (peek s) as [s' c]. cbn [fst] in P. destruct (c =? 35); [|lia]. cbv zeta.
  assert (I : (length (rest (ignore_line 1024 s')) <= length (rest s'))%nat).
  { unfold ignore_line. destruct (good s'); [|cbn; lia]. pose proof (drop_line_length 1024 (rest s')) as D.
    destruct (drop_line 1024 (rest s')). exact D. }
  pose proof (skip_spaces_length (S (length (rest (ignore_line 1024 s')))) (ignore_line 1024 s')).
  pose proof (IH (skip_spaces (S (length (rest (ignore_line 1024 s')))) (ignore_line 1024 s'))). lia.
Qed.
Lemma skip_any_length s : (length (rest (skip_any_comments s)) <= length (rest s))%nat.
Proof.
  unfold skip_any_comments. cbv zeta.
  pose proof (skip_spaces_length (S (length (rest s))) s).
  pose proof (skip_lines_length (S (length (rest (skip_spaces (S (length (rest s))) s)))) (skip_spaces (S (length (rest s))) s)). lia.
Qed.
(* C56.  What opening a file gives never depends on uninitialised variables;
   a file is refused with ArgumentErr exactly when it is missing or its first
   word is not P1 to P6, and otherwise with IOErr. *)
Theorem pbm_open_outcomes : forall file resc,
  exists o, (forall j1 j2 j3, open file resc j1 j2 j3 = o) /\
  (o = Throw ArgumentErr <->
   file = None \/ exists bytes, file = Some bytes /\
     forall g m l, Forall space g -> 1 <= m <= 6 -> (l = [] \/ exists c l', l = c :: l' /\ space c) ->
       bytes <> g ++ [80; 48 + m] ++ l) /\
  (o = Throw ArgumentErr \/ o = Throw IOErr \/
   exists r w h, o = Ok r /\ 1 <= magic r <= 6 /\ 1 <= max_value r <= 255 /\
     fmt r = file_format (magic r) (wrap_u32 w) (wrap_u32 h) true /\ i32_ok w /\ i32_ok h /\
     rescale r = resc /\
     exists bytes, file = Some bytes /\ 0 < position r <= Z.of_nat (length bytes)).
Proof.
  intros file resc. destruct file as [bytes|].
  2:{ exists (Throw ArgumentErr). split; [reflexivity|]. split; [tauto|auto]. }
  unfold open.
  destruct (get_word (mks bytes false false) []) as [s w] eqn:EW.
  destruct (word_split bytes s w EW) as [WS WL].
  destruct (magic_of w) as [m|] eqn:EM.
  2:{ exists (Throw ArgumentErr). split; [reflexivity|]. split; [|auto].
      split; auto. intros _. right. exists bytes. split; auto.
      intros g m l G M L E. subst bytes. rewrite word_found in EW by auto.
      assert (EW' : w = [80; 48 + m]) by congruence. rewrite EW' in EM. clear EW EW' WS WL.
      unfold magic_of in EM. rewrite Z.eqb_refl in EM. destruct (Z.leb_spec 49 (48 + m)), (Z.leb_spec (48 + m) 54); try lia. cbn [andb] in EM. discriminate EM. }
  destruct (magic_word w m EM) as [-> MR].
  assert (NA : ~ (Some bytes = None \/ exists bytes0, Some bytes = Some bytes0 /\
     forall g m l, Forall space g -> 1 <= m <= 6 -> (l = [] \/ exists c l', l = c :: l' /\ space c) ->
       bytes0 <> g ++ [80; 48 + m] ++ l)).
  { intros [H|(b & E & H)]; [discriminate|]. injection E as <-.
    destruct WS as (g & G & EB & L); [discriminate|]. eapply H; eauto. }
  assert (S1 : (length (rest s) < length bytes)%nat).
  { destruct WS as (g & _ & EB & _); [discriminate|]. rewrite EB, !app_length. cbn [length]. lia. }
  pose proof (skip_any_length s) as S2. set (s2 := skip_any_comments s) in *. clearbody s2.
  (* reading stops at the first failure *)
  assert (BAD : forall s' f j, good s' = false ->
    (let (s'', c) := get s' in if isspace c then f s'' c else Throw IOErr) = (j : res resource) -> j = Throw IOErr).
  { intros s' f j B <-. pose proof (get_bad s' B) as G. destruct (get s') as [s'' c]. cbn in G. subst. reflexivity. }
  assert (IOE : exists o : res resource, (forall j1 j2 j3 : Z, Throw IOErr = o) /\
    (o = Throw ArgumentErr <-> (Some bytes = None \/ exists bytes0, Some bytes = Some bytes0 /\
     forall g m l, Forall space g -> 1 <= m <= 6 -> (l = [] \/ exists c l', l = c :: l' /\ space c) ->
       bytes0 <> g ++ [80; 48 + m] ++ l)) /\
    (o = Throw ArgumentErr \/ o = Throw IOErr \/
   exists r w h, o = Ok r /\ 1 <= magic r <= 6 /\ 1 <= max_value r <= 255 /\
     fmt r = file_format (magic r) (wrap_u32 w) (wrap_u32 h) true /\ i32_ok w /\ i32_ok h /\
     rescale r = resc /\
     exists bytes', Some bytes = Some bytes' /\ 0 < position r <= Z.of_nat (length bytes'))).
  { exists (Throw IOErr). split; [reflexivity|]. split; [split; [discriminate|tauto]|auto]. }
  assert (FAIL : forall (F : Z -> Z -> Z -> res resource), (forall j1 j2 j3, F j1 j2 j3 = Throw IOErr) ->
    exists o, (forall j1 j2 j3, F j1 j2 j3 = o) /\
    (o = Throw ArgumentErr <-> (Some bytes = None \/ exists bytes0, Some bytes = Some bytes0 /\
     forall g m l, Forall space g -> 1 <= m <= 6 -> (l = [] \/ exists c l', l = c :: l' /\ space c) ->
       bytes0 <> g ++ [80; 48 + m] ++ l)) /\
    (o = Throw ArgumentErr \/ o = Throw IOErr \/
   exists r w h, o = Ok r /\ 1 <= magic r <= 6 /\ 1 <= max_value r <= 255 /\
     fmt r = file_format (magic r) (wrap_u32 w) (wrap_u32 h) true /\ i32_ok w /\ i32_ok h /\
     rescale r = resc /\
     exists bytes', Some bytes = Some bytes' /\ 0 < position r <= Z.of_nat (length bytes'))).
  { intros F HF. exists (Throw IOErr). split; [exact HF|]. split; [split; [discriminate|tauto]|auto]. }
  clear IOE.
  destruct (get_i32_cases s2) as [(s3 & iw & E3)|(s3 & B3 & E3)].
  2:{ apply FAIL. intros j1 j2 j3. rewrite E3.
      destruct (get_i32_bad (skip_any_comments s3) j2) as (s4 & B4 & E4); [apply skip_any_bad; auto|].
      rewrite E4. destruct (negb (m =? 1) && negb (m =? 4)).
      - destruct (get_i32_bad (skip_any_comments s4) j3) as (s5 & B5 & E5); [apply skip_any_bad; auto|].
        rewrite E5. exact (BAD s5 _ _ B5 eq_refl).
      - exact (BAD s4 _ _ B4 eq_refl). }
  pose proof (get_i32_length s2 0) as S3. rewrite E3 in S3. cbn [fst] in S3.
  pose proof (skip_any_length s3) as S4. pose proof (get_i32_range s2 0) as R3. rewrite E3 in R3.
  destruct (get_i32_cases (skip_any_comments s3)) as [(s4 & ih & E4)|(s4 & B4 & E4)].
  2:{ apply FAIL. intros j1 j2 j3. rewrite E3, E4. destruct (negb (m =? 1) && negb (m =? 4)).
      - destruct (get_i32_bad (skip_any_comments s4) j3) as (s5 & B5 & E5); [apply skip_any_bad; auto|].
        rewrite E5. exact (BAD s5 _ _ B5 eq_refl).
      - exact (BAD s4 _ _ B4 eq_refl). }
  pose proof (get_i32_length (skip_any_comments s3) 0) as S5. rewrite E4 in S5. cbn [fst] in S5.
  pose proof (get_i32_range (skip_any_comments s3) 0) as R4. rewrite E4 in R4.
  assert (LAST : forall s5 maxv, (length (rest s5) <= length (rest s4))%nat ->
    let o := (let (s, c) := get s5 in
          if isspace c then
            let pos := Z.of_nat (length bytes) - Z.of_nat (length (rest s)) in
            if (maxv <=? 0) || (255 <? maxv) then Throw IOErr
            else
              let f ct pf := mkfmt (wrap_u32 iw) (wrap_u32 ih) 1 pf ct true in
              let f := if (m =? 1) || (m =? 4) then f CBool PGray
                       else if (m =? 2) || (m =? 5) then f CU8 PGray
                       else f CU8 PRGB in
              Ok (mkres m maxv f pos resc)
          else Throw IOErr) in
    (o = Throw ArgumentErr <-> (Some bytes = None \/ exists bytes0, Some bytes = Some bytes0 /\
     forall g m l, Forall space g -> 1 <= m <= 6 -> (l = [] \/ exists c l', l = c :: l' /\ space c) ->
       bytes0 <> g ++ [80; 48 + m] ++ l)) /\
    (o = Throw ArgumentErr \/ o = Throw IOErr \/
   exists r w h, o = Ok r /\ 1 <= magic r <= 6 /\ 1 <= max_value r <= 255 /\
     fmt r = file_format (magic r) (wrap_u32 w) (wrap_u32 h) true /\ i32_ok w /\ i32_ok h /\
     rescale r = resc /\
     exists bytes', Some bytes = Some bytes' /\ 0 < position r <= Z.of_nat (length bytes'))).
  { intros s5 maxv S6. cbv zeta. pose proof (get_length s5) as S7.
    destruct (get s5) as [s6 c]. cbn [fst] in S7.
    destruct (isspace c); [|split; [split; [discriminate|tauto]|auto]].
    destruct (Z.leb_spec maxv 0); [split; [split; [discriminate|tauto]|auto]|].
    destruct (Z.ltb_spec 255 maxv); [split; [split; [discriminate|tauto]|auto]|]. cbn [orb].
    split; [split; [discriminate|tauto]|]. right. right.
    eexists. exists iw, ih. split; [reflexivity|]. cbn [magic max_value fmt position rescale].
    split; [lia|]. split; [lia|].
    split. { unfold file_format, pixels_of.
      assert (m = 1 \/ m = 2 \/ m = 3 \/ m = 4 \/ m = 5 \/ m = 6) as K by lia.
      repeat destruct K as [->|K]; try reflexivity. subst. reflexivity. }
    split; [apply R3; unfold i32_ok, i32_min, i32_max; lia|].
    split; [apply R4; unfold i32_ok, i32_min, i32_max; lia|].
    split; [reflexivity|]. exists bytes. split; [reflexivity|]. lia. }
  destruct (negb (m =? 1) && negb (m =? 4)) eqn:EK.
  - pose proof (skip_any_length s4) as S6.
    destruct (get_i32_cases (skip_any_comments s4)) as [(s5 & mx & E5)|(s5 & B5 & E5)].
    + pose proof (get_i32_length (skip_any_comments s4) 0) as S8. rewrite E5 in S8. cbn [fst] in S8.
      eexists. split; [intros j1 j2 j3; rewrite E3, E4, E5; reflexivity|]. apply LAST. lia.
    + apply FAIL. intros j1 j2 j3. rewrite E3, E4, E5. exact (BAD s5 _ _ B5 eq_refl).
  - eexists. split; [intros j1 j2 j3; rewrite E3, E4; reflexivity|]. apply LAST. lia.
Qed.

(* C56.  Samples are scaled to 0..255: order is kept, the largest sample
   becomes 255, files with maximum 255 are read as they are. *)
Theorem pbm_scaling : forall mx v, 1 <= mx <= 255 -> 0 <= v <= 255 ->
  normalize1 mx v = scaled mx v /\ 0 <= scaled mx v <= 255 /\ scaled mx 0 = 0 /\ scaled mx mx = 255 /\
  scaled 255 v = v /\ (forall u, 0 <= u <= v -> scaled mx u <= scaled mx v) /\
  (v <= mx -> 0 <= 255 * v - mx * scaled mx v < mx).
Proof.
  intros mx v M V. unfold normalize1, scaled.
  assert (B : forall u, 0 <= u <= mx -> 0 <= 255 * u / mx <= 255).
  { intros u U. split; [apply Z.div_pos; lia|]. apply Z.div_le_upper_bound; nia. }
  split; [|split; [|split; [|split; [|split; [|split]]]]].
  - destruct (Z.ltb_spec mx v); auto. rewrite (Z.mul_comm v). apply Z.mod_small. pose proof (B v). lia.
  - destruct (Z.ltb_spec mx v); [lia|]. apply B. lia.
  - destruct (Z.ltb_spec mx 0); [lia|]. reflexivity.
  - destruct (Z.ltb_spec mx mx); [lia|]. apply Z.div_mul. lia.
  - destruct (Z.ltb_spec 255 v); [lia|]. rewrite Z.mul_comm. apply Z.div_mul. lia.
  - intros u U. destruct (Z.ltb_spec mx u), (Z.ltb_spec mx v); try lia.
    + apply B. lia.
    + apply Z.div_le_mono; lia.
  - intros L. destruct (Z.ltb_spec mx v); [lia|].
    pose proof (Z.div_mod (255 * v) mx ltac:(lia)). pose proof (Z.mod_pos_bound (255 * v) mx ltac:(lia)). lia.
Qed.

(* C56.  Reading a file after opening it: the samples after the header, in
   binary or as numbers, scaled and converted to the buffer asked for. *)
Theorem pbm_read : forall fo m w h mx hd data resc r j1 j2 j3 dm dest vs junk jbuf,
  header m w h mx hd -> w <= i32_max -> h <= i32_max -> 1 <= mx <= 255 ->
  open (Some (hd ++ data)) resc j1 j2 j3 = Ok r ->
  fcols (bfmt dest) = w -> frows (bfmt dest) = h ->
  Z.of_nat (length vs) = w * h * nchan0 (pixels_of m) ->
  Z.of_nat (length junk) = w * h * nchan0 (pixels_of m) ->
  (m = 2 \/ m = 3) /\ samples data vs \/
  (m = 5 \/ m = 6) /\ bytes_ok vs /\ (exists more, data = vs ++ more) ->
  exists src, buffer_of (file_format m w h true) 0 = Ok src /\
    read_pbm fo r (Some (hd ++ data)) dm dest w h junk jbuf =
    convert fo dm dest (map (fun v => scaled mx (v mod 256)) vs) src resc.
Proof.
  intros fo m w h mx hd data resc r j1 j2 j3 dm dest vs junk jbuf H W Hh MX O DC DR LV LJ K.
  rewrite (open_header m w h mx hd data resc j1 j2 j3 H W Hh MX) in O. injection O as <-.
  assert (W0 : 0 <= w /\ 0 <= h).
  { destruct H as [? ? ? ? ? ? ? _ _ _ NW _ _ NH _]. split; eapply numeral_nonneg; eauto. }
  assert (M4 : m = 2 \/ m = 3 \/ m = 5 \/ m = 6) by tauto.
  assert (CT : fchan (file_format m w h true) = CU8) by (destruct M4 as [->|[->|[->| ->]]]; reflexivity).
  assert (NC : 0 < nchan0 (pixels_of m)) by (destruct M4 as [->|[->|[->| ->]]]; reflexivity).
  assert (BS : byte_size (file_format m w h true) = Ok (w * h * nchan0 (pixels_of m))).
  { unfold byte_size, csize, nchan. rewrite CT. cbn [csize0 Z.ltb Z.compare bind file_format fpix fcols frows fplanes].
    apply Z.ltb_lt in NC. rewrite NC. cbn [bind]. f_equal. ring. }
  assert (BO : exists src, buffer_of (file_format m w h true) 0 = Ok src).
  { unfold buffer_of, csize, nchan. rewrite CT. cbn [csize0 Z.ltb Z.compare bind file_format fpix].
    apply Z.ltb_lt in NC. rewrite NC. cbn [bind]. eauto. }
  destruct BO as [src BO]. exists src. split; auto.
  unfold read_pbm. cbn [fmt magic max_value position rescale].
  change (fcols (file_format m w h true)) with w. change (frows (file_format m w h true)) with h.
  rewrite DC, DR. unfold i32_max in *.
  rewrite !wrap_i32_id by (unfold i32_ok, i32_min, i32_max; lia). rewrite !wrap_u32_id by lia.
  rewrite !Z.eqb_refl. cbn [andb negb]. rewrite BS, BO. cbn [bind].
  rewrite Nat2Z.id, skipn_app, skipn_all, Nat.sub_diag. cbn [skipn app].
  rewrite <- LV, Nat2Z.id.
  assert (E4 : m =? 4 = false) by (apply Z.eqb_neq; lia). rewrite E4.
  assert (E1 : m =? 1 = false) by (apply Z.eqb_neq; lia). rewrite E1. cbn [negb andb].
  assert (SC : forall v, normalize1 mx (v mod 256) = scaled mx (v mod 256)).
  { intros v. apply pbm_scaling; auto. pose proof (Z.mod_pos_bound v 256). lia. }
  destruct K as [[M S]|[M [B [more ->]]]].
  - assert (E3 : m <=? 3 = true) by (apply Z.leb_le; lia). rewrite E3.
    rewrite (samples_ok data vs S), map_map. f_equal. apply map_ext. exact SC.
  - assert (E3 : m <=? 3 = false) by (apply Z.leb_gt; lia). rewrite E3.
    unfold read_binary. rewrite firstn_app, firstn_all, Nat.sub_diag. cbn [firstn]. rewrite app_nil_r.
    rewrite <- LJ, Nat2Z.inj_iff in LV. rewrite LV, skipn_all, app_nil_r.
    f_equal. apply map_ext_in. intros v Iv. rewrite <- SC.
    unfold bytes_ok in B. rewrite Forall_forall in B. rewrite Z.mod_small by (apply B; auto). reflexivity.
Qed.

(* ---- writing and reading back ---- *)
Lemma create_inv ext f resc asc r hd : create ext f resc asc = Ok (r, hd) ->
  exists m, (m = 2 \/ m = 3 \/ m = 5 \/ m = 6) /\
    r = mkres m 255 (file_format m (fcols f) (frows f) (fpre f)) (Z.of_nat (length hd)) resc /\
    hd = [80; 48 + m; 10] ++ dec (fcols f) ++ [32] ++ dec (frows f) ++ [10] ++ dec 255 ++ [10].
Proof.
  unfold create. intros H. destruct (fplanes f =? 1); cbn [negb] in H; [|discriminate].
  set (mm := match ext with ExtPBM => _ | _ => _ end) in H.
  assert (MM : mm = Ok 4 \/ mm = Ok 5 \/ mm = Ok 6 \/ exists e, mm = Throw e).
  { unfold mm. destruct ext; auto. unfold nchan. destruct (0 <? nchan0 (fpix f)); cbn [bind]; eauto.
    destruct (nchan0 (fpix f) =? 1); [destruct (cteqb (fchan f) CBool); auto|].
    destruct (nchan0 (fpix f) =? 3); eauto. }
  destruct MM as [E|[E|[E|[e E]]]]; rewrite E in H; cbn [bind Z.eqb Pos.eqb] in H; try discriminate;
    destruct asc; inversion H as [[HR HH]].
  - exists 2. split; [tauto|]. split; reflexivity.
  - exists 5. split; [tauto|]. split; reflexivity.
  - exists 3. split; [tauto|]. split; reflexivity.
  - exists 6. split; [tauto|]. split; reflexivity.
Qed.
Lemma create_header m w h : m = 2 \/ m = 3 \/ m = 5 \/ m = 6 ->
  0 <= w <= i32_max -> 0 <= h <= i32_max ->
  header m w h 255 ([80; 48 + m; 10] ++ dec w ++ [32] ++ dec h ++ [10] ++ dec 255 ++ [10]).
Proof.
  intros M W H. unfold i32_max in *.
  apply (header_intro m w h 255 [] 10 [] (dec w) [32] (dec h) ([10] ++ dec 255 ++ [10])).
  - constructor.
  - unfold space. lia.
  - constructor.
  - apply dec_numeral. change (2 ^ 32) with 4294967296. lia.
  - constructor; [unfold space; lia|constructor].
  - discriminate.
  - apply dec_numeral. change (2 ^ 32) with 4294967296. lia.
  - apply tail_max; auto.
    + constructor; [unfold space; lia|constructor].
    + discriminate.
    + apply dec_numeral. change (2 ^ 32) with 4294967296. lia.
    + unfold space. lia.
Qed.

(* the file is written and opened again *)
Lemma write_open fo ext f resc asc r hd sm src junk :
  create ext f resc asc = Ok (r, hd) ->
  0 <= fcols f <= i32_max -> 0 <= frows f <= i32_max ->
  fcols (bfmt src) = fcols f -> frows (bfmt src) = frows f -> fplanes (bfmt src) = 1 ->
  compatible (fpix (fmt r)) (fpix (bfmt src)) -> 0 < nchan0 (fpix (bfmt src)) ->
  numeric (fchan (bfmt src)) -> bytes_ok sm -> fits sm src ->
  alpha_tested (fmt r) (bfmt src) ->
  (forall k y x, in_buffer src k y x ->
     exists ys, converted fo (fmt r) (bfmt src) resc (pixel_at sm src k y x) = Ok ys) ->
  bytes_ok junk -> Z.of_nat (length junk) = fcols f * frows f * nchan0 (fpix (fmt r)) ->
  exists file data dst, write_pbm fo r hd sm src (fcols f) (frows f) junk = Ok file /\
    bytes_ok data /\ Z.of_nat (length data) = fcols f * frows f * nchan0 (fpix (fmt r)) /\
    (forall k y x, in_buffer src k y x ->
       converted fo (fmt r) (bfmt src) resc (pixel_at sm src k y x) = Ok (pixel_at data dst k y x)) /\
    bfmt dst = mkfmt (fcols f) (frows f) 1 (fpix (fmt r)) CU8 true /\
    fits data dst /\
    forall resc2 j1 j2 j3, exists r2, open (Some file) resc2 j1 j2 j3 = Ok r2 /\ fmt r2 = bfmt dst /\
      forall dm dest junk2 jbuf,
        fcols (bfmt dest) = fcols f -> frows (bfmt dest) = frows f ->
        Z.of_nat (length junk2) = fcols f * frows f * nchan0 (fpix (fmt r)) ->
        read_pbm fo r2 (Some file) dm dest (fcols f) (frows f) junk2 jbuf = convert fo dm dest data dst resc2.
Proof.
  intros C W H EC ER EP CP KN NM BS FS AT CV BJ LJ.
  destruct (create_inv _ _ _ _ _ _ C) as (m & M & ER' & EH).
  set (w := fcols f) in *. set (h := frows f) in *.
  pose proof (create_header m w h M W H) as HD. rewrite <- EH in HD.
  assert (FR : fmt r = file_format m w h (fpre f)) by (rewrite ER'; reflexivity).
  rewrite FR in *.
  assert (CT : fchan (file_format m w h (fpre f)) = CU8) by (destruct M as [->|[->|[->| ->]]]; reflexivity).
  assert (NC : 0 < nchan0 (pixels_of m)) by (destruct M as [->|[->|[->| ->]]]; reflexivity).
  destruct (buffer_contiguous (file_format m w h (fpre f)) 0) as [BC _]; try (cbn [file_format fcols frows fplanes]; lia).
  destruct BC as (dst & BO & BF & _ & AP & FIT); [rewrite CT; cbn [file_format fpix csize0]; lia|].
  destruct (buffer_contiguous (file_format m w h true) 0) as [BC _]; try (cbn [file_format fcols frows fplanes]; lia).
  assert (CT' : fchan (file_format m w h true) = CU8) by (destruct M as [->|[->|[->| ->]]]; reflexivity).
  destruct BC as (dst' & BO' & BF' & _ & AP' & FIT'); [rewrite CT'; cbn [file_format fpix csize0]; lia|].
  assert (PX : forall mem k y x, pixel_at mem dst k y x = pixel_at mem dst' k y x).
  { intros. destruct M as [->|[->|[->| ->]]]; cbn in BO, BO'; injection BO as <-; injection BO' as <-; reflexivity. }
  cbn [file_format fpix] in LJ.
  assert (FJ : forall k : list Z, length k = length junk -> fits k dst /\ fits k dst').
  { intros k E. split; [apply FIT|apply FIT']; rewrite ?CT, ?CT', E, LJ;
      cbn [file_format fcols frows fplanes fpix csize0]; lia. }
  assert (D : direct junk dst sm src).
  { constructor; rewrite ?BF; auto.
    - rewrite CT. constructor.
    - split; cbn [file_format fcols frows]; congruence.
    - apply FJ; auto. }
  destruct (direct_spec fo junk dst sm src resc D) as [R _]; [rewrite BF; auto|].
  destruct R as (data & E & L & BD & V & _). { intros k y x I. rewrite BF. apply CV; auto. }
  assert (LD : Z.of_nat (length data) = w * h * nchan0 (pixels_of m)) by congruence.
  set (file := hd ++ (if m <=? 3 then ascii_text data else data)).
  exists file, data, dst'.
  split.
  { unfold write_pbm. rewrite FR. change (fcols (file_format m w h (fpre f))) with w.
    change (frows (file_format m w h (fpre f))) with h. rewrite EC, ER. unfold i32_max in *.
    rewrite !wrap_i32_id by (unfold i32_ok, i32_min, i32_max; lia). rewrite !wrap_u32_id by lia.
    rewrite !Z.eqb_refl. cbn [andb negb]. rewrite ER'. cbn [magic rescale].
    assert (E4 : m =? 4 = false) by (apply Z.eqb_neq; lia). rewrite E4, BO. cbn [bind]. rewrite E. cbn [bind].
    unfold file. destruct (m <=? 3); reflexivity. }
  split; [exact BD|]. split; [exact LD|]. split.
  { intros k y x I. rewrite <- PX. specialize (V k y x I). rewrite BF in V. exact V. }
  split. { rewrite BF', <- CT'. reflexivity. }
  split. { apply FJ; auto. }
  intros resc2 j1 j2 j3.
  pose proof (open_header m w h 255 hd (if m <=? 3 then ascii_text data else data) resc2 j1 j2 j3 HD
    ltac:(lia) ltac:(lia) ltac:(lia)) as O. fold file in O.
  eexists. split; [exact O|]. split; [cbn [fmt]; auto|].
  intros dm dest junk2 jbuf DC DR LJ2.
  destruct (pbm_read fo m w h 255 hd (if m <=? 3 then ascii_text data else data) resc2 _ j1 j2 j3 dm dest data junk2 jbuf
    HD ltac:(lia) ltac:(lia) ltac:(lia) O DC DR LD LJ2) as (src' & BO2 & RD).
  { destruct M as [->|[->|[->| ->]]]; cbn [Z.leb Z.compare Pos.compare Pos.compare_cont].
    - left. split; auto. apply ascii_samples. exact BD.
    - left. split; auto. apply ascii_samples. exact BD.
    - right. split; auto. split; auto. exists []. rewrite app_nil_r. reflexivity.
    - right. split; auto. split; auto. exists []. rewrite app_nil_r. reflexivity. }
  fold file in RD. rewrite RD. rewrite BO' in BO2. injection BO2 as <-.
  f_equal. rewrite <- (map_id data) at 2. apply map_ext_in. intros v Iv.
  unfold bytes_ok in BD. rewrite Forall_forall in BD. specialize (BD v Iv).
  rewrite Z.mod_small by lia. apply (pbm_scaling 255 v); lia.
Qed.

(* C56.  An image written to a new file, in binary or as text, and read back
   is the image converted to 8 bits and then to the buffer asked for. *)
Theorem pbm_roundtrip : forall fo ext f resc asc r hd sm src junk,
  create ext f resc asc = Ok (r, hd) ->
  0 <= fcols f <= i32_max -> 0 <= frows f <= i32_max ->
  fcols (bfmt src) = fcols f -> frows (bfmt src) = frows f -> fplanes (bfmt src) = 1 ->
  compatible (fpix (fmt r)) (fpix (bfmt src)) -> 0 < nchan0 (fpix (bfmt src)) ->
  numeric (fchan (bfmt src)) -> bytes_ok sm -> fits sm src ->
  alpha_tested (fmt r) (bfmt src) ->
  (forall k y x, in_buffer src k y x ->
     exists ys, converted fo (fmt r) (bfmt src) resc (pixel_at sm src k y x) = Ok ys) ->
  bytes_ok junk -> Z.of_nat (length junk) = fcols f * frows f * nchan0 (fpix (fmt r)) ->
  exists file, write_pbm fo r hd sm src (fcols f) (frows f) junk = Ok file /\
    forall resc2 j1 j2 j3, exists r2, open (Some file) resc2 j1 j2 j3 = Ok r2 /\
      fmt r2 = mkfmt (fcols f) (frows f) 1 (fpix (fmt r)) CU8 true /\
      forall dm dest junk2 jbuf dm',
        fcols (bfmt dest) = fcols f -> frows (bfmt dest) = frows f -> fplanes (bfmt dest) = 1 ->
        compatible (fpix (bfmt dest)) (fpix (fmt r)) -> numeric (fchan (bfmt dest)) ->
        bytes_ok dm -> fits dm dest -> apart dest -> alpha_tested (bfmt dest) (fmt r2) ->
        Z.of_nat (length junk2) = fcols f * frows f * nchan0 (fpix (fmt r)) ->
        read_pbm fo r2 (Some file) dm dest (fcols f) (frows f) junk2 jbuf = Ok dm' ->
        forall k y x, in_buffer src k y x -> exists ys,
          converted fo (fmt r) (bfmt src) resc (pixel_at sm src k y x) = Ok ys /\
          converted fo (bfmt dest) (fmt r2) resc2 ys = Ok (pixel_at dm' dest k y x).
Proof.
  intros fo ext f resc asc r hd sm src junk C W H EC ER EP CP KN NM BS FS AT CV BJ LJ.
  destruct (write_open fo ext f resc asc r hd sm src junk C W H EC ER EP CP KN NM BS FS AT CV BJ LJ)
    as (file & data & dst & E & BD & LD & V & BF & FD & OP).
  exists file. split; auto. intros resc2 j1 j2 j3. destruct (OP resc2 j1 j2 j3) as (r2 & O & FR & RD).
  exists r2. split; auto. split; [congruence|].
  intros dm dest junk2 jbuf dm' DC DR DP DK DN DB DF DA DT LJ2 RE.
  rewrite RD in RE by auto.
  assert (D : direct dm dest data dst).
  { assert (K0 : 0 < nchan0 (fpix (fmt r))).
    { destruct (create_inv _ _ _ _ _ _ C) as (m & M & -> & _). cbn [fmt file_format fpix].
      destruct M as [->|[->|[->| ->]]]; reflexivity. }
    constructor; rewrite ?BF; cbn [fpix fchan fplanes]; auto; try constructor; auto. }
  rewrite FR in DT. destruct (direct_result fo dm dest data dst resc2 dm' D DT RE) as (_ & _ & V2 & _).
  intros k y x I. exists (pixel_at data dst k y x). split; auto.
  rewrite FR. apply V2. unfold in_buffer in *. rewrite BF. cbn [fplanes frows fcols]. lia.
Qed.

(* C56.  In particular an 8-bit image of the format of the file comes back
   exactly. *)
Theorem pbm_roundtrip_exact : forall fo ext f resc asc r hd sm src junk,
  create ext f resc asc = Ok (r, hd) ->
  0 <= fcols f <= i32_max -> 0 <= frows f <= i32_max ->
  fcols (bfmt src) = fcols f -> frows (bfmt src) = frows f -> fplanes (bfmt src) = 1 ->
  fpix (bfmt src) = fpix (fmt r) -> fchan (bfmt src) = CU8 -> bytes_ok sm -> fits sm src ->
  bytes_ok junk -> Z.of_nat (length junk) = fcols f * frows f * nchan0 (fpix (fmt r)) ->
  exists file, write_pbm fo r hd sm src (fcols f) (frows f) junk = Ok file /\
    forall resc2 j1 j2 j3, exists r2, open (Some file) resc2 j1 j2 j3 = Ok r2 /\
      forall dm dest junk2 jbuf,
        fcols (bfmt dest) = fcols f -> frows (bfmt dest) = frows f -> fplanes (bfmt dest) = 1 ->
        fpix (bfmt dest) = fpix (fmt r) -> fchan (bfmt dest) = CU8 ->
        bytes_ok dm -> fits dm dest -> apart dest ->
        Z.of_nat (length junk2) = fcols f * frows f * nchan0 (fpix (fmt r)) ->
        exists dm', read_pbm fo r2 (Some file) dm dest (fcols f) (frows f) junk2 jbuf = Ok dm' /\
          forall k y x, in_buffer src k y x -> pixel_at dm' dest k y x = pixel_at sm src k y x.
Proof.
  intros fo ext f resc asc r hd sm src junk C W H EC ER EP PF CT BS FS BJ LJ.
  destruct (create_inv _ _ _ _ _ _ C) as (m & M & RE & _).
  assert (NA : has_alpha (fpix (fmt r)) = false /\ 0 < nchan0 (fpix (fmt r)) /\ fchan (fmt r) = CU8 /\ fpix (fmt r) <> PRGBA).
  { rewrite RE. cbn [fmt file_format fpix fchan]. destruct M as [->|[->|[->| ->]]]; repeat split; discriminate. }
  destruct NA as (NA & NC & CR & NR).
  assert (SAME : forall d s rs xs, fpix s = fpix (fmt r) -> fpix d = fpix (fmt r) -> fchan s = CU8 -> fchan d = CU8 ->
    Forall (okv CU8) xs -> Z.of_nat (length xs) = nchan0 (fpix (fmt r)) -> converted fo d s rs xs = Ok xs).
  { intros d s rs xs P1 P2 C1 C2 V L. unfold converted. cbv zeta. rewrite P1, NA, P2, C1, C2.
    rewrite recolor_same by auto. apply mapM_id. intros x Ix. rewrite Forall_forall in V.
    apply conv_same; [auto|constructor]. }
  assert (OKP : forall k y x, in_buffer src k y x ->
    converted fo (fmt r) (bfmt src) resc (pixel_at sm src k y x) = Ok (pixel_at sm src k y x)).
  { intros k y x I. apply SAME; auto.
    - rewrite <- CT. apply pixel_okv; auto.
    - rewrite pixel_length, PF, Z2Nat.id; lia. }
  destruct (write_open fo ext f resc asc r hd sm src junk C W H EC ER EP)
    as (file & data & dst & E & BD & LD & V & BF & FD & OP); auto.
  { apply comp_same. auto. }
  { rewrite PF. auto. }
  { rewrite CT. constructor. }
  { right. right. rewrite PF. tauto. }
  { intros k y x I. eexists. apply OKP; auto. }
  exists file. split; auto. intros resc2 j1 j2 j3. destruct (OP resc2 j1 j2 j3) as (r2 & O & FR & RD).
  exists r2. split; auto.
  intros dm dest junk2 jbuf DC DR DP DK DN DB DF DA LJ2.
  assert (D : direct dm dest data dst).
  { constructor; rewrite ?BF; cbn [fpix fchan fplanes]; auto.
    - apply comp_same. auto.
    - rewrite DN. constructor.
    - constructor.
    - split; cbn [fcols frows]; auto. }
  assert (AT : alpha_tested (bfmt dest) (bfmt dst)).
  { right. right. rewrite BF. cbn [fpix]. rewrite DK. tauto. }
  assert (IB : forall k y x, in_buffer dst k y x -> in_buffer src k y x).
  { intros k y x. unfold in_buffer. rewrite BF. cbn [fplanes frows fcols]. lia. }
  assert (PD : forall k y x, in_buffer src k y x -> pixel_at data dst k y x = pixel_at sm src k y x).
  { intros k y x I. specialize (V k y x I). rewrite OKP in V by auto. congruence. }
  assert (OKD : forall k y x, in_buffer src k y x ->
    converted fo (bfmt dest) (bfmt dst) resc2 (pixel_at sm src k y x) = Ok (pixel_at sm src k y x)).
  { intros k y x I. apply SAME; auto; try (rewrite BF; reflexivity).
    - rewrite <- CT. apply pixel_okv; auto.
    - rewrite pixel_length, PF, Z2Nat.id; lia. }
  destruct (direct_spec fo dm dest data dst resc2 D AT) as [R _].
  destruct R as (dm' & E' & _ & _ & V' & _).
  { intros k y x I. rewrite PD by auto. eexists. apply OKD. auto. }
  exists dm'. split; [rewrite RD; auto|]. intros k y x I.
  assert (ID : in_buffer dst k y x).
  { unfold in_buffer in *. rewrite BF. cbn [fplanes frows fcols]. lia. }
  specialize (V' k y x ID). rewrite PD, OKD in V' by auto. congruence.
Qed.

Definition kind_of (ext : extension) (f : format) : res Z :=
  match ext with
  | ExtPBM => Ok 4
  | ExtPGM => Ok 5
  | ExtPPM => Ok 6
  | ExtOther =>
      n <- nchan (fpix f) ;;
      if n =? 1 then (if cteqb (fchan f) CBool then Ok 4 else Ok 5)
      else if n =? 3 then Ok 6
      else Throw NoImplErr
  end.
Lemma kind_cases ext f : kind_of ext f = Ok 4 \/ kind_of ext f = Ok 5 \/ kind_of ext f = Ok 6 \/
  kind_of ext f = Throw NoImplErr \/ kind_of ext f = Throw ArgumentErr.
Proof.
  destruct ext; cbn; auto. unfold nchan. destruct (0 <? nchan0 (fpix f)); cbn [bind]; auto.
  destruct (nchan0 (fpix f) =? 1); [destruct (cteqb (fchan f) CBool); auto|].
  destruct (nchan0 (fpix f) =? 3); auto.
Qed.
Lemma kind_refused ext f :
  (kind_of ext f = Ok 4 \/ kind_of ext f = Throw NoImplErr <->
   ext = ExtPBM \/ (ext = ExtOther /\ 0 < nchan0 (fpix f) /\
    ((nchan0 (fpix f) = 1 /\ fchan f = CBool) \/ (nchan0 (fpix f) <> 1 /\ nchan0 (fpix f) <> 3)))) /\
  (kind_of ext f = Throw ArgumentErr <-> ext = ExtOther /\ nchan0 (fpix f) = 0).
Proof.
  pose proof (nchan0_nonneg (fpix f)) as NN.
  destruct ext; cbn [kind_of].
  1-3: split; split; intros H; try tauto; repeat match goal with
    | H : _ \/ _ |- _ => destruct H | H : _ /\ _ |- _ => destruct H end; try discriminate; auto.
  unfold nchan. destruct (Z.ltb_spec 0 (nchan0 (fpix f))) as [N|N]; cbn [bind].
  - destruct (Z.eqb_spec (nchan0 (fpix f)) 1) as [E1|E1].
    + destruct (cteqb_spec (fchan f) CBool) as [E2|E2].
      * split; [|split; [discriminate|intros [_ H]; lia]]. split; auto. intros _. right. auto.
      * split; [|split; [discriminate|intros [_ H]; lia]]. split; [intros [H|H]; discriminate|].
        intros [H|(_ & _ & [[_ H]|[H _]])]; [discriminate|contradiction|contradiction].
    + destruct (Z.eqb_spec (nchan0 (fpix f)) 3) as [E3|E3].
      * split; [|split; [discriminate|intros [_ H]; lia]]. split; [intros [H|H]; discriminate|].
        intros [H|(_ & _ & [[H _]|[_ H]])]; [discriminate|contradiction|contradiction].
      * split; [|split; [discriminate|intros [_ H]; lia]]. split; auto. intros _. right. auto.
  - split; split; auto.
    + intros [H|H]; discriminate.
    + intros [H|(_ & H & _)]; [discriminate|lia].
    + intros _. split; auto. lia.
Qed.

(* C56.  What is refused. *)
Theorem pbm_rejects : forall ext f resc asc,
  (create ext f resc asc = Throw NoImplErr <->
   fplanes f <> 1 \/ ext = ExtPBM \/
   (ext = ExtOther /\ 0 < nchan0 (fpix f) /\
    ((nchan0 (fpix f) = 1 /\ fchan f = CBool) \/ (nchan0 (fpix f) <> 1 /\ nchan0 (fpix f) <> 3)))) /\
  (create ext f resc asc = Throw ArgumentErr <->
   fplanes f = 1 /\ ext = ExtOther /\ nchan0 (fpix f) = 0) /\
  (create ext f resc asc = Throw NoImplErr \/ create ext f resc asc = Throw ArgumentErr \/
   exists r hd, create ext f resc asc = Ok (r, hd)) /\
  forall fo r w h, (w <> wrap_i32 (fcols (fmt r)) \/ h <> wrap_i32 (frows (fmt r))) ->
    (forall file sm src junk, write_pbm fo r file sm src w h junk = Throw NoImplErr) /\
    (forall file dm dest junk jbuf, read_pbm fo r file dm dest w h junk jbuf = Throw NoImplErr).
Proof.
  intros ext f resc asc.
  assert (CR : (exists m, kind_of ext f = Ok m /\ m <> 4 /\ fplanes f = 1 /\ exists x, create ext f resc asc = Ok x) \/
    (create ext f resc asc = Throw NoImplErr /\ (fplanes f <> 1 \/ kind_of ext f = Ok 4 \/ kind_of ext f = Throw NoImplErr)) \/
    (create ext f resc asc = Throw ArgumentErr /\ fplanes f = 1 /\ kind_of ext f = Throw ArgumentErr)).
  { unfold create. fold (kind_of ext f). destruct (Z.eqb_spec (fplanes f) 1) as [P|P]; cbn [negb]; [|tauto].
    destruct (kind_cases ext f) as [E|[E|[E|[E|E]]]]; rewrite E; cbn [bind Z.eqb Pos.eqb]; try tauto.
    - left. exists 5. repeat split; try discriminate; auto. eexists. reflexivity.
    - left. exists 6. repeat split; try discriminate; auto. eexists. reflexivity. }
  pose proof (kind_refused ext f) as [K1 K2].
  split; [|split; [|split]].
  - split.
    + intros E. destruct CR as [(m & _ & _ & _ & x & E')|[(_ & [N|K])|(E' & _)]]; try congruence; [auto|].
      right. apply K1. auto.
    + intros R. destruct CR as [(m & E' & N & P & x & _)|[(E & _)|(_ & P & E')]]; auto; exfalso;
        destruct R as [R|R]; try contradiction; apply K1 in R as [R|R]; congruence.
  - split.
    + intros E. destruct CR as [(m & _ & _ & _ & x & E')|[(E' & _)|(_ & P & K)]]; try congruence.
      split; auto. apply K2. auto.
    + intros [P R]. destruct CR as [(m & E' & N & _)|[(_ & [E|[E|E]])|(E & _)]]; auto; exfalso;
        apply K2 in R; congruence.
  - destruct CR as [(m & _ & _ & _ & [r hd] & E)|[(E & _)|(E & _)]]; eauto.
  - intros fo r w h N.
    assert (B : (w =? wrap_i32 (fcols (fmt r))) && (h =? wrap_i32 (frows (fmt r))) = false).
    { destruct (Z.eqb_spec w (wrap_i32 (fcols (fmt r)))), (Z.eqb_spec h (wrap_i32 (frows (fmt r)))); auto; tauto. }
    split; intros; [unfold write_pbm|unfold read_pbm]; rewrite B; reflexivity.
Qed.

(* ---- what does not hold ---- *)

(* "P5\n2 1\n255\n" *)
Definition ex_hd (m : Z) : list Z := [80; 48 + m; 10; 50; 32; 49; 10; 50; 53; 53; 10].
Definition gray2 (pre : bool) : format := mkfmt 2 1 1 PGray CU8 pre.
Definition gbuf : buffer := mkbuf 0 (gray2 false) 1 2 2.

(* C56, false as one might state it: an image written twice to the same
   resource reads back as the second image.  The file is opened for appending
   and the position set before writing has no effect, so that the second
   image lands behind the first one, which is the one read. *)
Theorem pbm_second_write_refuted : exists f r hd file1 file2 r2,
  create ExtPGM f false false = Ok (r, hd) /\
  write_pbm ex_fo r hd [1; 2] gbuf 2 1 [0; 0] = Ok file1 /\
  write_pbm ex_fo r file1 [3; 4] gbuf 2 1 [0; 0] = Ok file2 /\
  open (Some file2) false 0 0 0 = Ok r2 /\
  read_pbm ex_fo r2 (Some file2) [0; 0] gbuf 2 1 [0; 0] 0 = Ok [1; 2].
Proof.
  exists (gray2 false), (mkres 5 255 (gray2 false) 11 false), (ex_hd 5), (ex_hd 5 ++ [1; 2]),
    (ex_hd 5 ++ [1; 2] ++ [3; 4]), (mkres 5 255 (gray2 true) 11 false).
  repeat apply conj; vm_compute; reflexivity.
Qed.

(* C56, false as one might state it: the files that open accepts can be read.
   A bitmap written as text (P1) has boolean channels, which no conversion
   handles, and a packed one (P4) is refused: no bitmap can be read, into any
   buffer. *)
Lemma convert_bool fo dm dst sm src rs dm' : fchan (bfmt src) = CBool -> convert fo dm dst sm src rs <> Ok dm'.
Proof.
  intros C.
  assert (CP : forall d s' x, fchan (bfmt s') = CBool -> convert_pixels fo dm d sm s' x <> Ok dm').
  { intros d s' x E. unfold convert_pixels, make_plan. rewrite E.
    destruct (nchan (fpix (bfmt s'))); cbn [bind]; try discriminate.
    destruct (nchan (fpix (bfmt d))); cbn [bind]; try discriminate.
    destruct (csize CBool); cbn [bind]; try discriminate.
    destruct (csize (fchan (bfmt d))); cbn [bind]; discriminate. }
  unfold convert. destruct (_ && _); [|discriminate].
  destruct (pfeqb _ _); [auto|].
  match goal with |- bind ?m _ <> _ => destruct m as [[]| |] end; cbn [bind]; try discriminate.
  { destruct (csize (fchan (bfmt dst))); cbn [bind]; try discriminate. auto. }
  match goal with |- bind ?m _ <> _ => destruct m as [[]| |] end; cbn [bind]; try discriminate.
  { destruct (csize (fchan (bfmt src))); cbn [bind]; try discriminate. apply CP. exact C. }
  destruct (accepted _ _); [auto|discriminate].
Qed.
Theorem pbm_bitmap_refuted :
  (exists file r, open (Some file) false 0 0 0 = Ok r /\ magic r = 1) /\
  forall file resc j1 j2 j3 r, open file resc j1 j2 j3 = Ok r -> magic r = 1 \/ magic r = 4 ->
    forall fo file' dm dest w h junk jbuf dm', read_pbm fo r file' dm dest w h junk jbuf <> Ok dm'.
Proof.
  split. { exists [80; 49; 10; 50; 32; 49; 10; 48; 32; 49]. eexists. split; vm_compute; reflexivity. }
  intros file resc j1 j2 j3 r O M fo file' dm dest w h junk jbuf dm' H.
  assert (C : fchan (fmt r) = CBool).
  { destruct (pbm_open_outcomes file resc) as (o & J & _ & K). rewrite J in O. subst o.
    destruct K as [E|[E|(r' & w' & h' & E & _ & _ & F & _)]]; try discriminate.
    assert (r' = r) by congruence. subst r'. rewrite F. destruct M as [-> | ->]; reflexivity. }
  unfold read_pbm in H.
  destruct (negb _) in H; [discriminate|]. destruct (negb _) in H; [discriminate|].
  destruct file' as [bytes|]; [|discriminate].
  destruct (byte_size (fmt r)) as [n| |]; cbn [bind] in H; try discriminate.
  destruct (magic r =? 4); [discriminate|].
  destruct (buffer_of (fmt r) 0) as [src| |] eqn:B; cbn [bind] in H; try discriminate.
  revert H. apply convert_bool. apply buffer_of_inv in B as (_ & _ & ->). exact C.
Qed.

(* C56, false as one might state it: a file with too few samples is refused.
   In a text file the last sample is repeated; in a binary file the missing
   samples are whatever the new array held. *)
Theorem pbm_short_file_refuted : exists r2 r5,
  open (Some (ex_hd 2 ++ [55])) false 0 0 0 = Ok r2 /\
  read_pbm ex_fo r2 (Some (ex_hd 2 ++ [55])) [0; 0] gbuf 2 1 [0; 0] 0 = Ok [7; 7] /\
  open (Some (ex_hd 5 ++ [55])) false 0 0 0 = Ok r5 /\
  read_pbm ex_fo r5 (Some (ex_hd 5 ++ [55])) [0; 0] gbuf 2 1 [0; 1] 0 = Ok [55; 1] /\
  read_pbm ex_fo r5 (Some (ex_hd 5 ++ [55])) [0; 0] gbuf 2 1 [0; 2] 0 = Ok [55; 2].
Proof. do 2 eexists. repeat split; vm_compute; reflexivity. Qed.

(* C56, false as one might state it: a sample above the maximal value is read
   as the maximal value.  In a text file the sample is first reduced to eight
   bits, so that 256 is read as 0 and not as 255. *)
Theorem pbm_sample_wraps_refuted : exists r,
  open (Some (ex_hd 2 ++ [50; 53; 54; 32; 57])) false 0 0 0 = Ok r /\
  read_pbm ex_fo r (Some (ex_hd 2 ++ [50; 53; 54; 32; 57])) [0; 0] gbuf 2 1 [0; 0] 0 = Ok [0; 9] /\
  scaled 255 256 = 255.
Proof. eexists. repeat split; vm_compute; reflexivity. Qed.

(* C56, false as one might state it: comments may have any length.  Only 1024
   characters of a comment are skipped; what follows is read as numbers. *)
Theorem pbm_long_comment_refuted : exists r,
  open (Some ([80; 53; 10; 35] ++ repeat 120 1023 ++ [57; 10; 50; 32; 51; 32; 50; 53; 53; 10])) false 0 0 0 = Ok r /\
  fcols (fmt r) = 9 /\ frows (fmt r) = 2 /\ max_value r = 3.
Proof. eexists. repeat split; vm_compute; reflexivity. Qed.

(* C56, false as one might state it: the size of an opened image is the size
   in its header.  A negative width is accepted and read as a huge one. *)
Theorem pbm_negative_width_refuted : exists r,
  open (Some [80; 53; 10; 45; 49; 32; 50; 32; 50; 53; 53; 10]) false 0 0 0 = Ok r /\
  fcols (fmt r) = 4294967295 /\ frows (fmt r) = 2.
Proof. eexists. repeat split; vm_compute; reflexivity. Qed.

(* ---- the hypotheses above are met ---- *)
(* "P5 # c\n# d\n02 1\t15\n" *)
Example ex_header : header 5 2 1 15 [80; 53; 32; 35; 32; 99; 10; 35; 32; 100; 10; 48; 50; 32; 49; 9; 49; 53; 10].
Proof.
  apply (header_intro 5 2 1 15 [] 32 [35; 32; 99; 10; 35; 32; 100; 10] [48; 50] [32] [49] [9; 49; 53; 10]).
  - constructor.
  - unfold space; lia.
  - apply (gap_comment [32; 99]); [intros H; cbn in H; lia|cbn; lia|].
    apply (gap_comment [32; 100]); [intros H; cbn in H; lia|cbn; lia|constructor].
  - apply (num_more [48] 0 50); [apply num_digit|]; unfold digit; lia.
  - constructor; [unfold space; lia|constructor].
  - discriminate.
  - apply (num_digit 49). unfold digit. lia.
  - apply (tail_max 5 15 [9] [49; 53] 10); [lia| |discriminate| |].
    + constructor; [unfold space; lia|constructor].
    + apply (num_more [49] 1 53); [apply (num_digit 49)|]; unfold digit; lia.
    + unfold space. lia.
Qed.
Example ex_samples : samples [32; 49; 10; 51; 48; 48] [1; 300].
Proof.
  apply (samples_cons [32] [49] 1 [10; 51; 48; 48]); [repeat constructor|apply (num_digit 49)|reflexivity| |].
  1-2: unfold digit; cbn; unfold digit; lia.
  apply (samples_cons [10] [51; 48; 48] 300 []); [| |reflexivity|exact I|constructor].
  - constructor; [unfold space; lia|constructor].
  - apply (num_more [51; 48] 30 48); [apply (num_more [51] 3 48); [apply (num_digit 51)|]|]; unfold digit; lia.
Qed.
Example ex_scaled : scaled 15 7 = 119 /\ scaled 15 15 = 255 /\ scaled 15 16 = 255.
Proof. repeat split. Qed.
(* an image of two pixels in a .ppm file, as text *)
Example ex_trip : exists r hd file r2,
  create ExtPPM (gray2 false) false true = Ok (r, hd) /\
  fits [7; 250] gbuf /\ apart gbuf /\ numeric (fchan (bfmt gbuf)) /\
  compatible (fpix (fmt r)) (fpix (bfmt gbuf)) /\ alpha_tested (fmt r) (bfmt gbuf) /\
  write_pbm ex_fo r hd [7; 250] gbuf 2 1 (repeat 3 6) = Ok file /\
  file = [80; 51; 10; 50; 32; 49; 10; 50; 53; 53; 10] ++
    [55; 32; 55; 32; 55; 32; 50; 53; 48; 32; 50; 53; 48; 32; 50; 53; 48] /\
  open (Some file) false 0 0 0 = Ok r2 /\ alpha_tested (bfmt gbuf) (fmt r2) /\
  read_pbm ex_fo r2 (Some file) [0; 0] gbuf 2 1 (repeat 0 6) 0 = Ok [7; 250].
Proof.
  do 4 eexists. split; [vm_compute; reflexivity|].
  split. { unfold fits, in_buffer, addr, pixel_size. cbn. intros. lia. }
  split. { unfold apart, in_buffer, addr, pixel_size. cbn. intros k y x k' y' x' A B N.
    assert (x <> x') by (intros ->; apply N; repeat f_equal; lia). lia. }
  split; [constructor|]. split; [apply comp_colour; constructor|].
  split; [right; right; split; discriminate|].
  split; [vm_compute; reflexivity|]. split; [reflexivity|]. split; [vm_compute; reflexivity|].
  split; [right; right; split; discriminate|]. vm_compute. reflexivity.
Qed.

Print Assumptions pbm_open_header.
Print Assumptions pbm_open_outcomes.
Print Assumptions pbm_scaling.
Print Assumptions pbm_read.
Print Assumptions pbm_roundtrip.
Print Assumptions pbm_roundtrip_exact.
Print Assumptions pbm_rejects.
Print Assumptions pbm_second_write_refuted.
Print Assumptions pbm_bitmap_refuted.
Print Assumptions pbm_short_file_refuted.
Print Assumptions pbm_sample_wraps_refuted.
Print Assumptions pbm_long_comment_refuted.
Print Assumptions pbm_negative_width_refuted.
