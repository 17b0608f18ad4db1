(* Parsing and printing Netpbm files. *)
From Coq Require Import ZArith List Bool Lia.
From Verif Require Import Lib.Base IBuf.Model IBuf.Spec Pbm.Model Pbm.Spec.
Import ListNotations.
Local Open Scope Z_scope.

Lemma isspace_spec c : isspace c = true <-> space c.
Proof.
  unfold isspace, space. rewrite orb_true_iff, andb_true_iff, Z.eqb_eq, !Z.leb_le. tauto.
Qed.
Lemma isdigit_spec c : isdigit c = true <-> digit c.
Proof. unfold isdigit, digit. rewrite andb_true_iff, !Z.leb_le. tauto. Qed.
Lemma isspace_no c : ~ space c -> isspace c = false.
Proof. intros H. destruct (isspace c) eqn:E; auto. apply isspace_spec in E. tauto. Qed.
Lemma isdigit_no c : ~ digit c -> isdigit c = false.
Proof. intros H. destruct (isdigit c) eqn:E; auto. apply isdigit_spec in E. tauto. Qed.
Lemma digit_not_space c : digit c -> ~ space c.
Proof. unfold digit, space. lia. Qed.

(* ---- skipping ---- *)
Definition solid (l : list Z) : Prop := match l with [] => False | c :: _ => ~ space c end.
Lemma skip_sp_spaces ws l : Forall space ws -> skip_sp (ws ++ l) = skip_sp l.
Proof.
  induction 1 as [|c ws H _ IH]; [reflexivity|]. cbn [app skip_sp].
  apply isspace_spec in H. rewrite H. exact IH.
Qed.
Lemma skip_sp_solid l : solid l -> skip_sp l = l.
Proof. destruct l as [|c l]; [intros []|]. cbn [solid skip_sp]. intros H. rewrite isspace_no; auto. Qed.
Lemma sentry_ok ws l : Forall space ws -> solid l ->
  sentry (mks (ws ++ l) false false) = (mks l false false, true).
Proof.
  intros W S. unfold sentry, good. cbn [eofb failb negb andb rest].
  rewrite skip_sp_spaces, skip_sp_solid by auto. destruct l; [contradiction|reflexivity].
Qed.

Lemma skip_spaces_ok : forall l fuel, (length l < fuel)%nat -> solid (skip_sp l) ->
  skip_spaces fuel (mks l false false) = mks (skip_sp l) false false.
Proof.
  induction l as [|c l IH]; intros fuel F S; [destruct S|].
  destruct fuel as [|fuel]; [cbn in F; lia|]. cbn [skip_spaces].
  unfold peek, good. cbn [eofb failb negb andb rest]. cbn [skip_sp] in *.
  destruct (isspace c) eqn:E.
  - unfold ignore1, good. cbn [eofb failb negb andb rest]. apply IH; auto. cbn in F. lia.
  - reflexivity.
Qed.
Lemma drop_line_ok : forall t n l, ~ In 10 t -> (length t < n)%nat -> drop_line n (t ++ 10 :: l) = (l, false).
Proof.
  induction t as [|c t IH]; intros n l N F; (destruct n as [|n]; [cbn in F; lia|]); cbn [app drop_line].
  - reflexivity.
  - destruct (Z.eqb_spec c 10) as [->|NE]; [exfalso; apply N; left; auto|].
    apply IH; [intros I; apply N; right; auto|cbn in F; lia].
Qed.
Definition plain (l : list Z) : Prop := match l with [] => False | c :: _ => ~ space c /\ c <> 35 end.
Lemma plain_solid l : plain l -> solid l.
Proof. destruct l; cbn; tauto. Qed.
Lemma gap_solid g l : gap g -> plain l -> solid (skip_sp (g ++ l)).
Proof.
  intros G P. induction G as [|c g S _ IH|t g N L _ IH].
  - cbn [app]. rewrite skip_sp_solid; apply plain_solid; auto.
  - cbn [app skip_sp]. apply isspace_spec in S. rewrite S. auto.
  - rewrite skip_sp_solid; cbn; unfold space; lia.
Qed.
Lemma skip_lines_ok g l : gap g -> plain l -> forall fuel, (length (g ++ l) < fuel)%nat ->
  skip_lines fuel (mks (skip_sp (g ++ l)) false false) = mks l false false.
Proof.
  intros G P. induction G as [|c g S _ IH|t g N L G IH]; intros fuel F.
  - cbn [app]. rewrite skip_sp_solid by (apply plain_solid; auto).
    destruct fuel as [|fuel]; [cbn in F; lia|]. cbn [skip_lines].
    destruct l as [|c l]; [destruct P|]. destruct P as [_ P].
    unfold peek, good. cbn [eofb failb negb andb rest].
    destruct (Z.eqb_spec c 35); [contradiction|reflexivity].
  - cbn [app skip_sp]. apply isspace_spec in S. rewrite S. apply IH. cbn in F. lia.
  - destruct fuel as [|fuel]; [cbn in F; lia|].
    rewrite skip_sp_solid by (cbn; unfold space; lia). cbn [app skip_lines].
    unfold peek, good. cbn [eofb failb negb andb rest]. rewrite Z.eqb_refl.
    unfold ignore_line, good. cbn [eofb failb negb andb rest].
    replace (35 :: (t ++ 10 :: g) ++ l) with ((35 :: t) ++ 10 :: g ++ l) by (cbn; rewrite <- app_assoc; reflexivity).
    rewrite drop_line_ok; [|intros [E|I]; [discriminate|auto]|cbn [length]; change 1024%nat with (S (S 1022)); lia].
    cbn [rest]. rewrite skip_spaces_ok; [|lia|apply gap_solid; auto].
    apply IH. cbn [app length] in F. rewrite !app_length in *. cbn [length] in F. lia.
Qed.
Lemma skip_any_ok g l : gap g -> plain l -> skip_any_comments (mks (g ++ l) false false) = mks l false false.
Proof.
  intros G P. unfold skip_any_comments. cbn [rest].
  rewrite skip_spaces_ok; [|lia|apply gap_solid; auto]. cbn [rest].
  assert (M : forall k, (length (skip_sp k) <= length k)%nat).
  { induction k as [|c k IH]; cbn [skip_sp length]; auto. destruct (isspace c); cbn [length]; lia. }
  (* enough fuel *)
  assert (FUEL : forall g, gap g -> forall fuel, (length (skip_sp (g ++ l)) < fuel)%nat ->
    skip_lines fuel (mks (skip_sp (g ++ l)) false false) = mks l false false).
  { clear g G. intros g G. induction G as [|c g S _ IH|t g N L G IH]; intros fuel F.
    - apply (skip_lines_ok []); auto; [constructor|]. cbn [app] in *.
      rewrite skip_sp_solid in F by (apply plain_solid; auto). auto.
    - cbn [app skip_sp] in *. apply isspace_spec in S. rewrite S in *. auto.
    - rewrite skip_sp_solid in F by (cbn; unfold space; lia).
      apply (skip_lines_ok (35 :: t ++ 10 :: g)); [apply gap_comment; auto|auto|exact F]. }
  apply FUEL; auto.
Qed.

(* ---- numbers ---- *)
Lemma numeral_digits ds v : numeral ds v -> Forall digit ds /\ ds <> [].
Proof.
  induction 1 as [c H|ds v c _ [IH NE] H].
  - split; [auto|discriminate].
  - split; [apply Forall_app; auto|]. destruct ds; discriminate.
Qed.
Lemma numeral_decimal ds v : numeral ds v -> decimal ds = v.
Proof.
  induction 1 as [c H|ds v c _ IH H]; unfold decimal in *.
  - cbn [fold_left]. lia.
  - rewrite fold_left_app. cbn [fold_left]. rewrite IH. reflexivity.
Qed.
Lemma numeral_nonneg ds v : numeral ds v -> 0 <= v.
Proof. induction 1 as [c H|ds v c _ IH H]; unfold digit in *; lia. Qed.
Lemma span_ok (p : Z -> bool) a l : Forall (fun c => p c = true) a ->
  match l with [] => True | c :: _ => p c = false end -> span p (a ++ l) = (a, l).
Proof.
  intros A L. induction A as [|c a H _ IH]; cbn [app].
  - destruct l as [|c l]; [reflexivity|]. cbn [span]. rewrite L. reflexivity.
  - cbn [span]. rewrite H, IH. reflexivity.
Qed.
Lemma span_digits ds l : Forall digit ds -> stops l -> span isdigit (ds ++ l) = (ds, l).
Proof.
  intros D S. apply span_ok.
  - eapply Forall_impl; [|exact D]. intros c. apply isdigit_spec.
  - destruct l; auto. apply isdigit_no; auto.
Qed.
Lemma get_sign_digit c l : digit c -> get_sign (c :: l) = (false, c :: l).
Proof.
  unfold digit. intros D.
  assert (c = 48 \/ c = 49 \/ c = 50 \/ c = 51 \/ c = 52 \/ c = 53 \/ c = 54 \/ c = 55 \/ c = 56 \/ c = 57) as H by lia.
  repeat destruct H as [->|H]; try reflexivity. subst. reflexivity.
Qed.
Lemma numeral_solid ds v l : numeral ds v -> plain (ds ++ l).
Proof.
  intros N. apply numeral_digits in N as [D NE]. destruct ds as [|c ds]; [congruence|].
  inversion D as [|? ? H]; subst. cbn. unfold digit, space in *. lia.
Qed.
Lemma get_i32_ok ws ds v l old : Forall space ws -> numeral ds v -> v <= i32_max -> stops l ->
  get_i32 (mks (ws ++ ds ++ l) false false) old = (mks l (at_end l) false, v).
Proof.
  intros W N V S. unfold get_i32.
  rewrite sentry_ok; [|auto|apply plain_solid; eapply numeral_solid; eauto].
  cbn [rest]. pose proof (numeral_digits _ _ N) as [D NE]. pose proof (numeral_decimal _ _ N) as E.
  pose proof (numeral_nonneg _ _ N) as P.
  destruct ds as [|c ds]; [congruence|]. cbn [app]. pose proof (Forall_inv D) as Hc.
  rewrite get_sign_digit by auto. change (c :: ds ++ l) with ((c :: ds) ++ l). rewrite span_digits by auto.
  rewrite E. unfold i32_min, i32_max in *.
  destruct (Z.ltb_spec v (-2147483648)); [lia|]. destruct (Z.ltb_spec 2147483647 v); [lia|]. reflexivity.
Qed.
Lemma get_u32_ok ws ds v l old : Forall space ws -> numeral ds v -> v < 2 ^ 32 -> stops l ->
  get_u32 (mks (ws ++ ds ++ l) false false) old = (mks l (at_end l) false, v).
Proof.
  intros W N V S. unfold get_u32.
  rewrite sentry_ok; [|auto|apply plain_solid; eapply numeral_solid; eauto].
  cbn [rest]. pose proof (numeral_digits _ _ N) as [D NE]. pose proof (numeral_decimal _ _ N) as E.
  pose proof (numeral_nonneg _ _ N) as P.
  destruct ds as [|c ds]; [congruence|]. cbn [app]. pose proof (Forall_inv D) as Hc.
  rewrite get_sign_digit by auto. change (c :: ds ++ l) with ((c :: ds) ++ l). rewrite span_digits by auto.
  rewrite E. change (2 ^ 32) with 4294967296 in V.
  destruct (Z.ltb_spec 4294967295 v); [lia|]. rewrite wrap_u32_id by lia. reflexivity.
Qed.

Lemma samples_ok l vs : samples l vs -> forall old,
  read_ascii (length vs) (mks l false false) old = map (fun v => v mod 256) vs.
Proof.
  induction 1 as [l|ws ds v l vs W N V S H IH]; intros old; [reflexivity|].
  cbn [length read_ascii map]. rewrite (get_u32_ok ws ds v l old) by auto.
  f_equal. destruct l as [|c l].
  - destruct vs as [|v' vs]; [reflexivity|].
    exfalso. inversion H as [|? ds' ? ? ? W' N' V' S' H' E1 E2]. 
    apply numeral_digits in N' as [_ NE]. destruct ws0; [|discriminate]. destruct ds'; [congruence|discriminate].
  - apply IH.
Qed.

(* ---- printing ---- *)
Lemma dec_aux_app n : forall v acc, dec_aux n v acc = dec_aux n v [] ++ acc.
Proof.
  induction n as [|n IH]; intros v acc; [reflexivity|]. cbn [dec_aux]. destruct (v <? 10); [reflexivity|].
  rewrite IH. rewrite (IH _ [48 + v mod 10]). rewrite <- app_assoc. reflexivity.
Qed.
Lemma dec_aux_numeral n : forall v, 0 <= v < 10 ^ Z.of_nat n -> (0 < n)%nat -> numeral (dec_aux n v []) v.
Proof.
  induction n as [|n IH]; intros v V N; [lia|]. cbn [dec_aux].
  destruct (Z.ltb_spec v 10) as [L|L].
  - replace v with (48 + v - 48) at 2 by lia. constructor. unfold digit. lia.
  - rewrite dec_aux_app. rewrite Nat2Z.inj_succ, Z.pow_succ_r in V by lia.
    pose proof (Z.div_mod v 10 ltac:(lia)) as D. pose proof (Z.mod_pos_bound v 10 ltac:(lia)) as M.
    assert (Q : 0 <= v / 10 < 10 ^ Z.of_nat n).
    { split; [apply Z.div_pos; lia|apply Z.div_lt_upper_bound; lia]. }
    replace v with (10 * (v / 10) + (48 + v mod 10 - 48)) at 3 by lia.
    constructor; [|unfold digit; lia]. apply IH; auto.
    destruct n as [|n]; [|lia]. change (10 ^ Z.of_nat 0) with 1 in Q.
    assert (1 <= v / 10) by (apply Z.div_le_lower_bound; lia). lia.
Qed.
Lemma dec_numeral v : 0 <= v < 2 ^ 32 -> numeral (dec v) v.
Proof.
  intros V. apply dec_aux_numeral; [|lia]. change (10 ^ Z.of_nat 20) with 100000000000000000000.
  change (2 ^ 32) with 4294967296 in V. lia.
Qed.
Lemma ascii_samples data : Forall (fun v => 0 <= v < 256) data -> samples (ascii_text data) data.
Proof.
  intros H. destruct data as [|v data]; [constructor|]. inversion H as [|? ? Hv Hd]; subst. clear H.
  assert (T : forall l, Forall (fun v => 0 <= v < 256) l ->
    samples (flat_map (fun w => 32 :: dec w) l) l /\ stops (flat_map (fun w => 32 :: dec w) l)).
  { induction 1 as [|w l Hw _ [IH IS]]; [split; [constructor|exact I]|].
    cbn [flat_map]. split; [|cbn; unfold digit; lia].
    change ((32 :: dec w) ++ flat_map (fun w0 => 32 :: dec w0) l) with ([32] ++ dec w ++ flat_map (fun w0 => 32 :: dec w0) l).
    constructor; auto.
    - repeat constructor.
    - apply dec_numeral. change (2 ^ 32) with 4294967296. lia.
    - change (2 ^ 32) with 4294967296. lia. }
  destruct (T data Hd) as [T1 T2]. unfold ascii_text.
  change (dec v ++ flat_map (fun w => 32 :: dec w) data) with ([] ++ dec v ++ flat_map (fun w => 32 :: dec w) data).
  constructor; auto.
  - apply dec_numeral. change (2 ^ 32) with 4294967296. lia.
  - change (2 ^ 32) with 4294967296. lia.
Qed.

(* ---- headers ---- *)
Lemma stops_gap g l : gap g -> g <> [] -> stops (g ++ l).
Proof.
  intros G NE. destruct G as [|c g S _|t g _ _ _]; [congruence| |]; cbn; unfold digit, space in *; lia.
Qed.
Lemma space_stops c l : space c -> stops (c :: l).
Proof. cbn. unfold space, digit. lia. Qed.
Lemma app_ne {A} (a b : list A) : a <> [] -> exists c l, a ++ b = c :: l.
Proof. destruct a; [congruence|]. intros _. cbn. eauto. Qed.

Theorem open_header m w h mx hd data resc j1 j2 j3 : header m w h mx hd ->
  w <= i32_max -> h <= i32_max -> 1 <= mx <= 255 ->
  open (Some (hd ++ data)) resc j1 j2 j3 =
  Ok (mkres m mx (file_format m w h true) (Z.of_nat (length hd)) resc).
Proof.
  intros H W Hh MX. destruct H as [g0 c1 g1 dw g2 dh tl G0 C1 G1 NW G2 NE2 NH T].
  assert (MR : 1 <= m <= 6) by (destruct T; lia).
  set (hd := g0 ++ [80; 48 + m] ++ c1 :: g1 ++ dw ++ g2 ++ dh ++ tl).
  assert (HD : hd ++ data = g0 ++ [80; 48 + m] ++ c1 :: (g1 ++ dw ++ g2 ++ dh ++ tl ++ data)).
  { unfold hd. rewrite <- !app_assoc. cbn [app]. rewrite <- !app_assoc. reflexivity. }
  unfold open.
  assert (WD : get_word (mks (hd ++ data) false false) [] =
    (mks (c1 :: g1 ++ dw ++ g2 ++ dh ++ tl ++ data) false false, [80; 48 + m])).
  { unfold get_word. rewrite HD, sentry_ok; [|auto|cbn; unfold space; lia]. cbn [rest].
    rewrite span_ok; [reflexivity| |].
    - repeat constructor; rewrite isspace_no; auto; unfold space; lia.
    - apply isspace_spec in C1. rewrite C1. reflexivity. }
  rewrite WD.
  assert (MO : magic_of [80; 48 + m] = Some m).
  { unfold magic_of. rewrite Z.eqb_refl. destruct (Z.leb_spec 49 (48 + m)), (Z.leb_spec (48 + m) 54); try lia. cbn [andb].
    f_equal. lia. }
  rewrite MO.
  change (c1 :: g1 ++ dw ++ g2 ++ dh ++ tl ++ data) with ((c1 :: g1) ++ dw ++ g2 ++ dh ++ tl ++ data).
  rewrite skip_any_ok by (try (constructor; auto); eapply numeral_solid; eauto).
  rewrite (get_i32_ok [] dw w (g2 ++ dh ++ tl ++ data)) by (auto; apply stops_gap; auto).
  destruct (app_ne g2 (dh ++ tl ++ data) NE2) as (x & l & EX). rewrite EX. cbn [at_end]. rewrite <- EX.
  rewrite skip_any_ok by (auto; eapply numeral_solid; eauto).
  assert (PO : forall pre : list Z, (length hd <= length pre)%nat -> True) by auto. clear PO.
  assert (LEN : Z.of_nat (length (hd ++ data)) - Z.of_nat (length data) = Z.of_nat (length hd)).
  { rewrite app_length. lia. }
  assert (WI : wrap_u32 w = w /\ wrap_u32 h = h).
  { pose proof (numeral_nonneg _ _ NW). pose proof (numeral_nonneg _ _ NH). unfold i32_max in *.
    split; apply wrap_u32_id; lia. }
  destruct WI as [WW WH].
  assert (FIN : forall c, space c ->
    (let (s, c0) := get (mks (c :: data) false false) in
      if isspace c0 then
        if (mx <=? 0) || (255 <? mx) then Throw IOErr
        else Ok (mkres m mx
          (if (m =? 1) || (m =? 4) then mkfmt (wrap_u32 w) (wrap_u32 h) 1 PGray CBool true
           else if (m =? 2) || (m =? 5) then mkfmt (wrap_u32 w) (wrap_u32 h) 1 PGray CU8 true
           else mkfmt (wrap_u32 w) (wrap_u32 h) 1 PRGB CU8 true)
          (Z.of_nat (length (hd ++ data)) - Z.of_nat (length (rest s))) resc)
      else Throw IOErr) =
    Ok (mkres m mx (file_format m w h true) (Z.of_nat (length hd)) resc)).
  { intros c S. unfold get, good. cbn [eofb failb negb andb rest]. apply isspace_spec in S. rewrite S.
    destruct (Z.leb_spec mx 0); [lia|]. destruct (Z.ltb_spec 255 mx); [lia|]. cbn [orb].
    rewrite LEN, WW, WH. unfold file_format, pixels_of.
    assert (m = 1 \/ m = 2 \/ m = 3 \/ m = 4 \/ m = 5 \/ m = 6) as K by lia.
    repeat destruct K as [->|K]; try reflexivity. subst. reflexivity. }
  destruct T as [c M -> S|g3 dx c M G3 NE3 NX S].
  - cbn [app]. rewrite (get_i32_ok [] dh h (c :: data)) by (auto; apply space_stops; auto).
    cbn [at_end].
    assert (B : negb (m =? 1) && negb (m =? 4) = false) by (destruct M as [-> | ->]; reflexivity).
    rewrite B. apply FIN; auto.
  - rewrite <- !app_assoc. rewrite (get_i32_ok [] dh h (g3 ++ dx ++ [c] ++ data)) by (auto; apply stops_gap; auto).
    destruct (app_ne g3 (dx ++ [c] ++ data) NE3) as (x' & l' & EX'). rewrite EX'. cbn [at_end]. rewrite <- EX'.
    assert (B : negb (m =? 1) && negb (m =? 4) = true) by (destruct M as [->|[->|[->| ->]]]; reflexivity).
    rewrite B. rewrite skip_any_ok by (auto; eapply numeral_solid; eauto).
    rewrite (get_i32_ok [] dx mx ([c] ++ data)); [|auto|auto|unfold i32_max; lia|apply space_stops; auto].
    cbn [app at_end]. apply FIN; auto.
Qed.
