(* One pixel of the conversion. *)
From Coq Require Import ZArith List Bool Lia.
From Verif Require Import Lib.Base IBuf.Model IBuf.Spec IBuf.Mem.
Import ListNotations.
Local Open Scope Z_scope.

Section P.
Variable fo : fops.

Lemma mapM_length f : forall l ys, mapM f l = Ok ys -> length ys = length l.
Proof.
  induction l; cbn [mapM]; intros ys H.
  - injection H as <-. reflexivity.
  - apply bind_ok in H as (y & _ & H). apply bind_ok in H as (l' & E & H).
    injection H as <-. cbn [length]. rewrite (IHl _ E). reflexivity.
Qed.
Lemma mapM_forall f (P : Z -> Prop) : forall l ys, (forall x y, In x l -> f x = Ok y -> P y) ->
  mapM f l = Ok ys -> Forall P ys.
Proof.
  induction l; cbn [mapM]; intros ys HP H.
  - injection H as <-. constructor.
  - apply bind_ok in H as (y & E1 & H). apply bind_ok in H as (l' & E & H).
    injection H as <-. constructor.
    + eapply HP; [left; reflexivity|exact E1].
    + apply IHl; auto. intros x z I. apply HP. right; auto.
Qed.

Definition stage1 (p : plan) (xs : list Z) : res (list Z) :=
  if unpre_src p then unpremultiply fo (sct p) xs
  else if pre_src p then premultiply fo (sct p) xs
  else Ok xs.
Definition px (p : plan) (xs : list Z) : res (list Z) :=
  ys <- stage1 p xs ;;
  zs <- recolor (conv fo (sct p) (dct p) (resc p)) (average fo (dct p)) (set_max (dct p)) ys (dn p) ;;
  if pre_dst p then premultiply fo (dct p) zs else Ok zs.

Definition good (p : plan) : Prop :=
  0 < sn p /\ 0 < dn p /\ (sn p = dn p \/ (sn p <= 4 /\ dn p <= 4)) /\
  in_table (sct p) = true /\ in_table (dct p) = true.

(* ---- representable values ---- *)
Lemma signed_id v h : - h <= v < h -> (v + h) mod (2 * h) - h = v.
Proof. intros. rewrite Z.mod_small; lia. Qed.
Lemma int_range_ok t v : int_type t <> None -> int_min t <= v <= int_max t -> okv t v.
Proof.
  unfold okv, norm, int_min, int_max, is_signed. intros N R.
  destruct t; cbn [int_type] in N, R |- *; try congruence; cbn [csize0].
  - apply (signed_id v (2 ^ 7)). simpl in R |- *. lia.
  - apply Z.mod_small. simpl in R |- *. lia.
  - apply (signed_id v (2 ^ 15)). simpl in R |- *. lia.
  - apply Z.mod_small. simpl in R |- *. lia.
  - apply (signed_id v (2 ^ 31)). simpl in R |- *. lia.
  - apply Z.mod_small. simpl in R |- *. lia.
  - apply (signed_id v (2 ^ 63)). simpl in R |- *. lia.
  - apply Z.mod_small. simpl in R |- *. lia.
Qed.

Lemma narrow_int t : narrow t = true -> int_type t <> None.
Proof. destruct t; cbn; congruence. Qed.
Lemma to_int_ok t v w : int_type t <> None -> to_int t v = Ok w -> okv t w.
Proof.
  unfold to_int. intros N H.
  destruct ((int_min t <=? v) && (v <=? int_max t)) eqn:E; [|discriminate].
  injection H as <-. apply andb_true_iff in E as [E1 E2]. apply Z.leb_le in E1, E2.
  apply int_range_ok; auto.
Qed.
Lemma mul1_okv t v a w : mul1 fo t v a = Ok w -> okv t w.
Proof.
  unfold mul1. destruct (narrow t) eqn:N; intros H.
  - eapply to_int_ok; eauto. apply narrow_int; auto.
  - apply bind_ok in H as (u & _ & H). injection H as <-. apply norm_idem.
Qed.
Lemma div1_okv t v a w : div1 fo t v a = Ok w -> okv t w.
Proof.
  unfold div1. destruct (narrow t) eqn:N; intros H.
  - destruct (a =? 0); [discriminate|]. eapply to_int_ok; eauto. apply narrow_int; auto.
  - apply bind_ok in H as (u & _ & H). injection H as <-. apply norm_idem.
Qed.
Lemma set_max_okv t : in_table t = true -> okv t (set_max t).
Proof. destruct t; cbn; intros; try discriminate; reflexivity. Qed.
Lemma average_okv t l m : average fo t l = Ok m -> okv t m.
Proof.
  unfold average. destruct (int_type t); intros H.
  - apply bind_ok in H as (s & _ & H). apply bind_ok in H as (q & _ & H).
    injection H as <-. apply norm_idem.
  - injection H as <-. apply norm_idem.
Qed.
Lemma cteqb_eq a b : cteqb a b = true -> a = b.
Proof. unfold cteqb. destruct (ctype_eq_dec a b); auto; discriminate. Qed.
Lemma conv_okv s d r v w : okv s v -> conv fo s d r v = Ok w -> okv d w.
Proof.
  unfold conv. intros V H.
  assert (F : (if cteqb s d then Ok v else w0 <- f_conv fo s d r v;; Ok (norm d w0)) = Ok w -> okv d w).
  { destruct (cteqb s d) eqn:E.
    - apply cteqb_eq in E as <-. intros E2. injection E2 as <-. exact V.
    - intros E2. apply bind_ok in E2 as (u & _ & E2). injection E2 as <-. apply norm_idem. }
  destruct (int_type s); auto. destruct (int_type d); auto.
  destruct (r && cteqb s CU16 && cteqb d CU8) eqn:E1.
  - apply andb_true_iff in E1 as [_ E]. apply cteqb_eq in E as ->. injection H as <-. apply norm_idem.
  - destruct (r && cteqb s CU8 && cteqb d CU16) eqn:E2.
    + apply andb_true_iff in E2 as [_ E]. apply cteqb_eq in E as ->. injection H as <-. apply norm_idem.
    + injection H as <-. apply norm_idem.
Qed.

Lemma removelast_length (l : list Z) : l <> [] -> S (length (removelast l)) = length l.
Proof.
  intros H. rewrite (app_removelast_last 0 H) at 2.
  rewrite app_length. cbn [length]. lia.
Qed.
Lemma last_In (l : list Z) : l <> [] -> In (last l 0) l.
Proof.
  intros H. rewrite (app_removelast_last 0 H) at 2. apply in_or_app. right; left; reflexivity.
Qed.

Lemma premultiply_shape t xs ys : xs <> [] -> Forall (okv t) xs -> premultiply fo t xs = Ok ys ->
  length ys = length xs /\ Forall (okv t) ys.
Proof.
  unfold premultiply. intros NE V H. apply bind_ok in H as (l & E & H). injection H as <-. split.
  - rewrite app_length. cbn [length]. rewrite (mapM_length _ _ _ E).
    rewrite <- (removelast_length xs NE). lia.
  - apply Forall_app. split.
    + eapply mapM_forall; [|exact E]. intros x y _. apply mul1_okv.
    + constructor; [|constructor]. rewrite Forall_forall in V. apply V. apply last_In; auto.
Qed.
Lemma unpremultiply_shape t xs ys : xs <> [] -> Forall (okv t) xs -> unpremultiply fo t xs = Ok ys ->
  length ys = length xs /\ Forall (okv t) ys.
Proof.
  unfold unpremultiply. intros NE V H. apply bind_ok in H as (l & E & H). injection H as <-. split.
  - rewrite app_length. cbn [length]. rewrite (mapM_length _ _ _ E).
    rewrite <- (removelast_length xs NE). lia.
  - apply Forall_app. split.
    + eapply mapM_forall; [|exact E]. intros x y _. apply div1_okv.
    + constructor; [|constructor]. rewrite Forall_forall in V. apply V. apply last_In; auto.
Qed.

Lemma stage1_shape p xs ys : xs <> [] -> Forall (okv (sct p)) xs -> stage1 p xs = Ok ys ->
  length ys = length xs /\ Forall (okv (sct p)) ys.
Proof.
  unfold stage1. intros NE V H. destruct (unpre_src p).
  - eapply unpremultiply_shape; eauto.
  - destruct (pre_src p).
    + eapply premultiply_shape; eauto.
    + injection H as <-. auto.
Qed.

Ltac inv_res := repeat match goal with
  | H : bind _ _ = Ok _ |- _ => apply bind_ok in H as (? & ? & H)
  | H : Ok _ = Ok _ |- _ => injection H; clear H; intros; subst
  end.

Lemma recolor_shape cv mean top (P : Z -> Prop) xs n ys :
  0 < n ->
  (forall x y, In x xs -> cv x = Ok y -> P y) -> (forall l y, mean l = Ok y -> P y) -> P top ->
  recolor cv mean top xs n = Ok ys -> Z.of_nat (length ys) = n /\ Forall P ys.
Proof.
  intros Hn HC HM HT. unfold recolor.
  destruct (Z.eqb_spec (Z.of_nat (length xs)) n) as [E|NE].
  - intros H. split.
    + rewrite (mapM_length _ _ _ H). exact E.
    + eapply mapM_forall; eauto.
  - destruct xs as [|x0 [|x1 [|x2 [|x3 [|x4 xs]]]]]; cbn [length] in NE;
      destruct n as [|n|n]; try discriminate; try lia;
      destruct n as [[n|n|]|[[n|n|]|[n|n|]|]|]; try discriminate; try (cbn in NE; congruence);
      cbn [mapM]; intros H; inv_res; (split; [reflexivity|]);
      repeat constructor; eauto using in_eq, in_cons.
Qed.

(* ---- the writes of one pixel ---- *)
Definition rest (p : plan) (get : Z -> res Z) (da : Z) (dm : list Z) : res (list Z) :=
  let t := dct p in
  let cv := conv fo (sct p) t (resc p) in
  let put ch v m := store t m (da + ch * csize0 t) v in
  dm <- for_up 0 (copy_length (sn p) (dn p)) (fun ch m =>
          v <- get ch ;; w <- cv v ;; put ch w m) dm ;;
  dm <- (if (sn p <? 3) && (3 <=? dn p) then
           v <- get 0 ;; w <- cv v ;; m <- put 1 w dm ;;
           v <- get 0 ;; w <- cv v ;; put 2 w m
         else if (3 <=? sn p) && (dn p <? 3) then
           v0 <- get 0 ;; w0 <- cv v0 ;;
           v1 <- get 1 ;; w1 <- cv v1 ;;
           v2 <- get 2 ;; w2 <- cv v2 ;;
           a <- average fo t [w0; w1; w2] ;; put 0 a dm
         else Ok dm) ;;
  dm <- (if negb (sn p =? dn p) && (sn p mod 2 =? 0) && (dn p mod 2 =? 0) then
           v <- get (sn p - 1) ;; w <- cv v ;; put (dn p - 1) w dm
         else if (sn p mod 2 =? 1) && (dn p mod 2 =? 0) then
           put (dn p - 1) (set_max t) dm
         else Ok dm) ;;
  if pre_dst p then
    ys <- load_all t dm da (dn p) ;;
    zs <- premultiply fo t ys ;; store_all t dm da zs
  else Ok dm.

Lemma bind_assoc {A B C} (m : res A) (f : A -> res B) (g : B -> res C) :
  bind (bind m f) g = bind m (fun x => bind (f x) g).
Proof. destruct m; reflexivity. Qed.
Lemma bind_ext {A B} (m : res A) (f g : A -> res B) :
  (forall x, m = Ok x -> f x = g x) -> bind m f = bind m g.
Proof. destruct m; cbn [bind]; auto. Qed.

Lemma store_len t m a v m' : store t m a v = Ok m' -> length m' = length m.
Proof.
  unfold store. destruct (in_mem m a (csize0 t)) eqn:E; [|discriminate].
  intros H. injection H as <-. apply in_mem_spec in E as [E1 E2].
  apply splice_length. rewrite to_bytes_length. pose proof (csize0_nonneg t). lia.
Qed.
Lemma store_ex t m a v : 0 <= a -> a + csize0 t <= Z.of_nat (length m) ->
  exists m', store t m a v = Ok m' /\ length m' = length m.
Proof.
  intros. destruct (store t m a v) eqn:E; try (rewrite store_ok in E by auto; discriminate).
  eexists; split; eauto. eapply store_len; eauto.
Qed.

(* copying channels one after the other *)
Lemma copy_loop t cv get da : forall l i m,
  0 <= i -> (forall k, (k < length l)%nat -> get (i + Z.of_nat k) = Ok (nth k l 0)) ->
  0 <= da -> da + (i + Z.of_nat (length l)) * csize0 t <= Z.of_nat (length m) ->
  loop (length l) i (fun ch m => v <- get ch ;; w <- cv v ;; store t m (da + ch * csize0 t) w) m
  = (ys <- mapM cv l ;; store_all t m (da + i * csize0 t) ys).
Proof.
  pose proof (csize0_nonneg t) as C.
  induction l as [|v l IH]; intros i m Hi G Hd H; cbn [length loop mapM].
  - reflexivity.
  - cbn [length] in G, H.
    pose proof (G O ltac:(lia)) as G0. cbn [Z.of_nat nth] in G0. rewrite Z.add_0_r in G0.
    rewrite G0. cbn [bind]. destruct (cv v) as [w|e|u]; cbn [bind]; auto.
    destruct (store_ex t m (da + i * csize0 t) w) as (m' & E & L); [nia|nia|].
    rewrite E. cbn [bind]. rewrite IH.
    + destruct (mapM cv l) as [ys|e|u]; cbn [bind]; auto.
      cbn [store_all]. rewrite E. cbn [bind]. f_equal. lia.
    + lia.
    + intros k Hk. replace (i + 1 + Z.of_nat k) with (i + Z.of_nat (S k)) by lia.
      rewrite G by lia. reflexivity.
    + lia.
    + rewrite L. nia.
Qed.


Definition writes (p : plan) (get : Z -> res Z) (da : Z) (dm : list Z) : res (list Z) :=
  let t := dct p in
  let cv := conv fo (sct p) t (resc p) in
  let put ch v m := store t m (da + ch * csize0 t) v in
  dm <- for_up 0 (copy_length (sn p) (dn p)) (fun ch m =>
          v <- get ch ;; w <- cv v ;; put ch w m) dm ;;
  dm <- (if (sn p <? 3) && (3 <=? dn p) then
           v <- get 0 ;; w <- cv v ;; m <- put 1 w dm ;;
           v <- get 0 ;; w <- cv v ;; put 2 w m
         else if (3 <=? sn p) && (dn p <? 3) then
           v0 <- get 0 ;; w0 <- cv v0 ;;
           v1 <- get 1 ;; w1 <- cv v1 ;;
           v2 <- get 2 ;; w2 <- cv v2 ;;
           a <- average fo t [w0; w1; w2] ;; put 0 a dm
         else Ok dm) ;;
  if negb (sn p =? dn p) && (sn p mod 2 =? 0) && (dn p mod 2 =? 0) then
    v <- get (sn p - 1) ;; w <- cv v ;; put (dn p - 1) w dm
  else if (sn p mod 2 =? 1) && (dn p mod 2 =? 0) then
    put (dn p - 1) (set_max t) dm
  else Ok dm.

Lemma rest_writes p get da dm : rest p get da dm =
  (dm <- writes p get da dm ;;
   if pre_dst p then
     ys <- load_all (dct p) dm da (dn p) ;;
     zs <- premultiply fo (dct p) ys ;; store_all (dct p) dm da zs
   else Ok dm).
Proof.
  unfold rest, writes. cbv zeta. rewrite bind_assoc. apply bind_ext. intros m _.
  rewrite bind_assoc. reflexivity.
Qed.

Ltac one_store := match goal with
  | |- context [store ?t ?m ?a ?v] =>
      let m' := fresh "m" in let E := fresh "E" in let L := fresh "L" in
      destruct (store_ex t m a v) as (m' & E & L); [nia|nia|]; rewrite ?E; cbn [bind]
  end.

Ltac step1 := cbn [bind store_all app];
  first [ reflexivity
        | match goal with H : ?a = Ok _ |- context [?a] => rewrite H; cbn [bind] end
        | match goal with |- bind ?m _ = _ =>
            lazymatch m with
            | store _ _ _ _ => one_store
            | bind _ _ => rewrite bind_assoc
            | _ => destruct m as [?|?|?] eqn:?; cbn [bind]
            end end
        | one_store ].

Lemma writes_eq p get da dm xs :
  good p -> Z.of_nat (length xs) = sn p ->
  (forall k, (k < length xs)%nat -> get (Z.of_nat k) = Ok (nth k xs 0)) ->
  0 <= da -> da + dn p * csize0 (dct p) <= Z.of_nat (length dm) ->
  writes p get da dm =
  (zs <- recolor (conv fo (sct p) (dct p) (resc p)) (average fo (dct p)) (set_max (dct p)) xs (dn p) ;;
   store_all (dct p) dm da zs).
Proof.
  intros (P1 & P2 & P3 & _ & _) Len G Hd H. unfold writes, recolor. cbv zeta.
  set (cv := conv fo (sct p) (dct p) (resc p)). set (t := dct p) in *. clearbody cv.
  set (a := sn p) in *. set (b := dn p) in *. clearbody a b t.
  pose proof (csize0_nonneg t) as C. set (s := csize0 t) in *.
  rewrite Len. destruct (Z.eqb_spec a b) as [EQ|NE].
  - subst b. unfold copy_length. rewrite Z.eqb_refl.
    replace (negb true && (a mod 2 =? 0) && (a mod 2 =? 0)) with false by reflexivity.
    replace ((a <? 3) && (3 <=? a)) with false by (destruct (Z.ltb_spec a 3), (Z.leb_spec 3 a); auto; lia).
    replace ((3 <=? a) && (a <? 3)) with false by (destruct (Z.ltb_spec a 3), (Z.leb_spec 3 a); auto; lia).
    replace ((a mod 2 =? 1) && (a mod 2 =? 0)) with false
      by (destruct (Z.eqb_spec (a mod 2) 1), (Z.eqb_spec (a mod 2) 0); auto; lia).
    unfold for_up. replace (Z.to_nat (a - 0)) with (length xs) by lia.
    unfold s. rewrite copy_loop with (l := xs); auto; try lia.
    cbn [bind]. replace (da + 0 * csize0 t) with da by lia.
    destruct (mapM cv xs); cbn [bind]; auto. destruct (store_all t dm da a0); reflexivity.
  - destruct P3 as [P3|[P3 P4]]; [contradiction|].
    assert (AB : (a = 1 \/ a = 2 \/ a = 3 \/ a = 4) /\ (b = 1 \/ b = 2 \/ b = 3 \/ b = 4)) by lia.
    destruct AB as [A B].
    destruct xs as [|x0 xs]; cbn [length] in *; [lia|].
    pose proof (G 0%nat ltac:(lia)) as G0. cbn in G0.
    assert (G1 : (1 <= length xs)%nat -> get 1 = Ok (nth 0 xs 0)) by (intros; apply (G 1%nat); lia).
    assert (G2 : (2 <= length xs)%nat -> get 2 = Ok (nth 1 xs 0)) by (intros; apply (G 2%nat); lia).
    assert (G3 : (3 <= length xs)%nat -> get 3 = Ok (nth 2 xs 0)) by (intros; apply (G 3%nat); lia).
    clear G.
    destruct xs as [|x1 [|x2 [|x3 [|x4 xs]]]]; cbn [length nth] in *; try lia;
      destruct A as [A|[A|[A|A]]]; try lia; destruct B as [B|[B|[B|B]]]; try lia; clear Len; subst a b;
      unfold copy_length, for_up; cbn [Z.eqb Z.ltb Z.leb Z.compare Pos.compare Pos.compare_cont Pos.eqb negb andb
        Z.sub Z.add Z.opp Z.to_nat Pos.to_nat Pos.iter_op Nat.add loop Z.pos_sub Pos.pred_double Pos.succ mapM app];
      try change (Pos.to_nat 1) with 1%nat; try change (Pos.to_nat 3) with 3%nat;
      cbn [loop Z.add Pos.add Pos.succ];
      try change (1 mod 2) with 1; try change (2 mod 2) with 0; try change (3 mod 2) with 1; try change (4 mod 2) with 0;
      cbn [Z.eqb Pos.eqb negb andb];
      try specialize (G1 ltac:(lia)); try specialize (G2 ltac:(lia)); try specialize (G3 ltac:(lia));
      fold s;
      replace (da + 0 * s) with da by lia; replace (da + 1 * s) with (da + s) by lia;
      replace (da + 2 * s) with (da + s + s) by lia; replace (da + 3 * s) with (da + s + s + s) by lia;
      subst s.
    all: repeat step1.
Qed.

Lemma px_shape p xs ys : good p -> Z.of_nat (length xs) = sn p -> Forall (okv (sct p)) xs ->
  px p xs = Ok ys -> Z.of_nat (length ys) = dn p /\ Forall (okv (dct p)) ys.
Proof.
  intros (P1 & P2 & P3 & T1 & T2) Len V H. unfold px in H.
  apply bind_ok in H as (l & E1 & H). apply bind_ok in H as (z & E2 & H).
  assert (NE : xs <> []) by (destruct xs; [cbn [length] in Len; lia|discriminate]).
  destruct (stage1_shape _ _ _ NE V E1) as [L1 V1].
  apply recolor_shape with (P := okv (dct p)) in E2; auto.
  - destruct E2 as [L2 V2].
    assert (NZ : z <> []) by (destruct z; [cbn [length] in L2; lia|discriminate]).
    destruct (pre_dst p).
    + destruct (premultiply_shape _ _ _ NZ V2 H) as [L3 V3]. rewrite L3. auto.
    + injection H as <-. auto.
  - rewrite Forall_forall in V1. intros x y I. apply conv_okv. auto.
  - intros l0 y. apply average_okv.
  - apply set_max_okv; auto.
Qed.

Lemma pixel_rest p sm sa da dm xs : good p -> bytes_ok sm -> 0 <= sa ->
  sa + sn p * csize0 (sct p) <= Z.of_nat (length sm) ->
  xs = map (fun i => value (sct p) sm (sa + i * csize0 (sct p))) (zrange 0 (sn p)) ->
  exists get : list Z -> Z -> res Z,
  (forall ys, stage1 p xs = Ok ys -> forall k, (k < length xs)%nat -> get ys (Z.of_nat k) = Ok (nth k ys 0)) /\
  pixel fo p sm sa da dm = (ys <- stage1 p xs ;; rest p (get ys) da dm).
Proof.
  intros (P1 & P2 & P3 & T1 & T2) B Ha Hl X.
  pose proof (load_all_ok (sct p) sm sa (sn p) B ltac:(lia) Ha Hl) as LA. rewrite <- X in LA.
  unfold pixel, stage1. cbv zeta. destruct (unpre_src p); [|destruct (pre_src p)].
  - exists (fun ys ch => Ok (nth (Z.to_nat ch) ys 0)). split.
    + intros. rewrite Nat2Z.id. reflexivity.
    + rewrite LA. cbn [bind]. rewrite bind_assoc. reflexivity.
  - exists (fun ys ch => Ok (nth (Z.to_nat ch) ys 0)). split.
    + intros. rewrite Nat2Z.id. reflexivity.
    + rewrite LA. cbn [bind]. rewrite bind_assoc. reflexivity.
  - exists (fun _ ch => load (sct p) sm (sa + ch * csize0 (sct p))). split; [|reflexivity].
    intros ys E k Hk. injection E as <-.
    assert (LX : length xs = Z.to_nat (sn p)).
    { rewrite X, map_length, zrange_length. f_equal. lia. }
    pose proof (csize0_nonneg (sct p)) as C.
    rewrite load_ok; [|auto|nia|nia]. f_equal. rewrite X.
    rewrite (nth_indep _ 0 (value (sct p) sm (sa + 0 * csize0 (sct p))))
      by (rewrite map_length, zrange_length; lia).
    rewrite (map_nth (fun i => value (sct p) sm (sa + i * csize0 (sct p)))).
    unfold zrange. rewrite zseq_nth by lia. reflexivity.
Qed.

Theorem pixel_eq p sm sa da dm xs : good p -> bytes_ok sm -> bytes_ok dm -> 0 <= sa ->
  sa + sn p * csize0 (sct p) <= Z.of_nat (length sm) -> 0 <= da ->
  da + dn p * csize0 (dct p) <= Z.of_nat (length dm) ->
  xs = map (fun i => value (sct p) sm (sa + i * csize0 (sct p))) (zrange 0 (sn p)) ->
  pixel fo p sm sa da dm =
    (ys <- px p xs ;; Ok (splice dm (Z.to_nat da) (px_bytes (dct p) ys))).
Proof.
  intros G B BD Ha Hl Hd Hdl X.
  destruct (pixel_rest p sm sa da dm xs G B Ha Hl X) as (get & GG & E). rewrite E. clear E.
  pose proof G as (P1 & P2 & P3 & T1 & T2).
  assert (LX : Z.of_nat (length xs) = sn p) by (rewrite X, map_length, zrange_length; lia).
  assert (NE : xs <> []) by (destruct xs; [cbn [length] in LX; lia|discriminate]).
  pose proof (csize0_nonneg (sct p)) as C. pose proof (csize0_nonneg (dct p)) as CD.
  assert (V : Forall (okv (sct p)) xs).
  { rewrite X. apply Forall_forall. intros x I. apply in_map_iff in I as (i & <- & I).
    apply in_zrange in I. apply value_okv; auto; nia. }
  unfold px. rewrite bind_assoc. apply bind_ext. intros ys E1.
  destruct (stage1_shape _ _ _ NE V E1) as [L1 V1].
  rewrite rest_writes. rewrite (writes_eq p (get ys) da dm ys); auto; [|lia|rewrite L1; eauto].
  rewrite !bind_assoc. apply bind_ext. intros zs E2.
  apply recolor_shape with (P := okv (dct p)) in E2; auto.
  2:{ rewrite Forall_forall in V1. intros x y I. apply conv_okv. auto. }
  2:{ intros l0 y. apply average_okv. }
  2:{ apply set_max_okv; auto. }
  destruct E2 as [L2 V2].
  assert (NZ : zs <> []) by (destruct zs; [cbn [length] in L2; lia|discriminate]).
  rewrite store_all_ok by (auto; lia). cbn [bind].
  destruct (pre_dst p); [|reflexivity].
  assert (LP : (Z.to_nat da + length (px_bytes (dct p) zs) <= length dm)%nat)
    by (rewrite px_bytes_length; nia).
  rewrite load_all_ok; auto; [|apply bytes_splice; auto; apply px_bytes_ok|lia|rewrite splice_length by auto; lia].
  cbn [bind]. rewrite <- L2. rewrite pixel_stored by (auto; lia).
  apply bind_ext. intros ws E3.
  destruct (premultiply_shape _ _ _ NZ V2 E3) as [L3 V3].
  rewrite store_all_ok by (auto; rewrite splice_length by auto; rewrite L3; lia).
  rewrite splice_over; auto. rewrite !px_bytes_length. rewrite L3. reflexivity.
Qed.
End P.
