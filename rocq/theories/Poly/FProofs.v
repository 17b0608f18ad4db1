(** Files, lines cut to a window and grids. *)
From Coq Require Import String List Bool ZArith QArith Qround Permutation Lia Lqa.
From Verif Require Import Lib.Base Lib.Lists Lib.Str Poly.Model Poly.Spec Poly.Proofs Poly.EProofs Poly.GProofs Poly.SProofs.
From Verif Require Cut.Model Cut.Spec Cut.Props.
Import ListNotations.
Local Open Scope list_scope.
Local Open Scope Z_scope.

(** ** Reading without regard to the last line *)

Section Reading.
Variables color_of layer_of : str -> str.
Fixpoint read_all (c : bool) (l : list line) (r : reader) : res reader :=
  match l with [] => Ok r | ln :: l => r <- read_line color_of layer_of c ln false r ;; read_all c l r end.
Lemma read_all_app c l m r : read_all c (l ++ m) r = (r <- read_all c l r ;; read_all c m r).
Proof. revert r. induction l as [|ln l IH]; intros r; [reflexivity|]. cbn [app read_all]. destruct (read_line _ _ _ _ _ _); cbn [bind]; auto. Qed.

Definition sane (r : reader) : Prop := 0 <= r_beg r <= Z.of_nat (length (r_xs r)) /\ length (r_xs r) = length (r_ys r).
Lemma finish_done r : sane r -> exists r', finish r = Ok r' /\ sane r' /\ finish r' = Ok r'.
Proof.
  intros [I L]. unfold finish. set (n := Z.of_nat (length (r_xs r))) in *. destruct (Z.ltb_spec (r_beg r) n) as [B|B].
  - assert (V : exists b, (if r_beg r <? n - 1 then
        xb <- vget (r_xs r) (r_beg r) ;; xe <- vget (r_xs r) (n - 1) ;; yb <- vget (r_ys r) (r_beg r) ;; ye <- vget (r_ys r) (n - 1) ;;
        Ok (Qeq_bool xb xe && Qeq_bool yb ye) else Ok false) = Ok b /\ (b = true -> 0 < n)).
    { assert (G : forall (v : list Q) i, 0 <= i < Z.of_nat (length v) -> exists a, vget v i = Ok a).
      { intros v i Hi. unfold vget. destruct (Z.ltb_spec i 0); [lia|]. destruct (nth_error v (Z.to_nat i)) eqn:N; [eauto|apply nth_error_None in N; lia]. }
      destruct (r_beg r <? n - 1); [|exists false; split; [auto|discriminate]].
      destruct (G (r_xs r) (r_beg r)) as [a1 ->]; [lia|]. destruct (G (r_xs r) (n - 1)) as [a2 ->]; [lia|]. destruct (G (r_ys r) (r_beg r)) as [a3 ->]; [lia|]. destruct (G (r_ys r) (n - 1)) as [a4 ->]; [lia|].
      cbn [bind]. eexists. split; [reflexivity|]. lia. }
    destruct V as (b & -> & Nb). cbn [bind]. set (m := if b then n - 1 else n). assert (M : 0 <= m <= n) by (unfold m; destruct b; lia).
    eexists. split; [reflexivity|]. unfold sane. cbn [r_xs r_ys r_beg]. rewrite !firstn_length. split; [split; lia|].
    destruct (Z.ltb_spec m (Z.of_nat (Nat.min (Z.to_nat m) (length (r_xs r))))); [lia|reflexivity].
  - exists r. split; auto. split; [split; auto|]. fold n. destruct (Z.ltb_spec (r_beg r) n); [lia|reflexivity].
Qed.

Definition grown (ln : line) (r : reader) : reader :=
  match ln with
  | LColor c => Reader (r_xs r) (r_ys r) (r_beg r) (r_layer r) (color_of c) (r_counts r) (r_closed r) (r_colors r) (r_layers r) (r_annos r)
  | LAnno x y rest => Reader (r_xs r) (r_ys r) (r_beg r) (r_layer r) (r_color r) (r_counts r) (r_closed r) (r_colors r) (r_layers r) (r_annos r ++ [Anno x y rest])
  | LVert x y lay =>
      let xs := r_xs r ++ [x] in
      Reader xs (r_ys r ++ [y]) (r_beg r) (if (Z.of_nat (length xs) =? r_beg r + 1)%Z then layer_of lay else r_layer r) (r_color r)
             (r_counts r) (r_closed r) (r_colors r) (r_layers r) (r_annos r)
  | LNext | LBlank => r
  end.
Lemma grown_sane ln r : sane r -> sane (grown ln r).
Proof. intros [I L]. destruct ln; cbn [grown]; split; cbn [r_xs r_ys r_beg]; auto; rewrite ?app_length; cbn [length]; lia. Qed.

Lemma read_end c l r : sane r -> l <> [] ->
  exists r1 r2, read_all c l r = Ok r1 /\ finish r1 = Ok r2 /\ read_lines color_of layer_of c l r = Ok r2.
Proof.
  revert r. induction l as [|ln l IH]; intros r Sr N; [congruence|]. cbn [read_all read_lines].
  assert (E : forall last, read_line color_of layer_of c ln last r = if last || match ln with LNext => true | _ => false end || c then finish (grown ln r) else Ok (grown ln r)) by reflexivity.
  rewrite !E. pose proof (grown_sane ln r Sr) as Sg. destruct (finish_done (grown ln r) Sg) as (r' & F1 & S' & F2).
  destruct l as [|ln' l].
  - cbn [orb]. rewrite F1. cbn [bind read_lines read_all]. destruct (match ln with LNext => true | _ => false end || c).
    + cbn [bind]. eauto.
    + cbn [bind]. eauto.
  - cbn [orb]. destruct (match ln with LNext => true | _ => false end || c).
    + rewrite F1. cbn [bind]. apply IH; [auto|discriminate].
    + cbn [bind]. apply IH; [auto|discriminate].
Qed.

(** ** What is written can be read *)

Definition reads (c : bool) (out : list line) (l1 : list polygon) (a : list pt) (an : list anno) (q : reader -> Prop) : Prop :=
  exists r, read_all c out (Reader [] [] 0 [] yellow [] [] [] [] []) = Ok r /\
    r_xs r = map fst (points l1 ++ a) /\ r_ys r = map snd (points l1 ++ a) /\ r_beg r = len (points l1) /\
    r_counts r = map (fun g => len (verts g)) l1 /\ r_closed r = map (fun _ => false) l1 /\ r_colors r = map col l1 /\ r_layers r = map lay l1 /\
    r_annos r = map spaced an /\ q r.

Lemma reads_q c out l1 a an (q q' : reader -> Prop) : (forall r, q r -> q' r) -> reads c out l1 a an q -> reads c out l1 a an q'.
Proof. intros H (r & A & B & C & D & E & F & G & I & J & K). exists r. auto 20. Qed.

Lemma reads_color out l1 an co q : color_of co = co -> reads false out l1 [] an q -> reads false (out ++ [LColor co]) l1 [] an (fun r => r_color r = co).
Proof.
  intros Hc (r & A & B & C & D & E & F & G & I & J & K). eexists. rewrite read_all_app, A. cbn [bind read_all read_line orb]. split; [reflexivity|].
  cbn [r_xs r_ys r_beg r_counts r_closed r_colors r_layers r_annos r_color]. auto 20.
Qed.
Lemma reads_anno out l1 a an x (q : reader -> Prop) : (forall r ans, q r -> q (Reader (r_xs r) (r_ys r) (r_beg r) (r_layer r) (r_color r) (r_counts r) (r_closed r) (r_colors r) (r_layers r) ans)) ->
  reads false out l1 a an q -> reads false (out ++ [anno_line x]) l1 a (an ++ [x]) q.
Proof.
  intros Hq (r & A & B & C & D & E & F & G & I & J & K). eexists. rewrite read_all_app, A. cbn [bind read_all read_line anno_line orb]. split; [reflexivity|].
  cbn [r_xs r_ys r_beg r_counts r_closed r_colors r_layers r_annos]. rewrite J, (map_app spaced). repeat (split; [first [assumption|reflexivity]|]). apply (Hq r _ K).
Qed.
Lemma reads_vert out l1 a an (x : pt) la co : layer_of la = la ->
  reads false out l1 a an (fun r => r_color r = co /\ (a <> [] -> r_layer r = la)) ->
  reads false (out ++ [LVert (fst x) (snd x) la]) l1 (a ++ [x]) an (fun r => r_color r = co /\ (a ++ [x] <> [] -> r_layer r = la)).
Proof.
  intros Hl (r & A & B & C & D & E & F & G & I & J & K1 & K2). eexists. rewrite read_all_app, A. cbn [bind read_all read_line orb]. split; [reflexivity|].
  cbn [r_xs r_ys r_beg r_counts r_closed r_colors r_layers r_annos r_color r_layer]. rewrite B, C, D, !app_assoc, !(map_app _ _ [x]). cbn [map]. repeat split; auto.
  intros _. destruct a as [|y a].
  - match goal with |- (if ?b then _ else _) = _ => assert (b = true) as -> end; [|auto].
    apply Z.eqb_eq. unfold len, pt. rewrite app_nil_r, app_length, map_length. cbn [length]. lia.
  - match goal with |- (if ?b then _ else _) = _ => destruct b end; [auto|]. apply K2. discriminate.
Qed.
Lemma nth_last {A} (l : list A) x : nth_error (l ++ [x]) (length l) = Some x.
Proof. rewrite nth_error_app2, Nat.sub_diag by lia. reflexivity. Qed.

Lemma finish_open r l1 g : r_xs r = map fst (points l1 ++ verts g) -> r_ys r = map snd (points l1 ++ verts g) -> r_beg r = len (points l1) ->
  verts g <> [] -> open_end (verts g) ->
  finish r = Ok (Reader (r_xs r) (r_ys r) (len (points (l1 ++ [g]))) (r_layer r) (r_color r)
     (r_counts r ++ [len (verts g)]) (r_closed r ++ [false]) (r_colors r ++ [r_color r]) (r_layers r ++ [r_layer r]) (r_annos r)).
Proof.
  intros X Y Bg N O. unfold finish.
  assert (Ln : Z.of_nat (length (r_xs r)) = len (points l1) + len (verts g)) by (rewrite X, map_length, app_length; unfold len; lia).
  assert (Ly : length (r_ys r) = length (r_xs r)) by (rewrite X, Y, !map_length; reflexivity).
  assert (Lp : len (points (l1 ++ [g])) = len (points l1) + len (verts g)) by (rewrite points_app, len_app; cbn [points flat_map]; now rewrite app_nil_r).
  assert (Lg : 0 < len (verts g)) by (destruct (verts g) as [|x v]; [congruence|rewrite len_cons; pose proof (len_pos v); lia]).
  rewrite Bg, Ln. destruct (Z.ltb_spec (len (points l1)) (len (points l1) + len (verts g))); [|lia].
  replace (if len (points l1) <? len (points l1) + len (verts g) - 1 then _ else _) with (Ok false : res bool).
  - cbn [bind]. rewrite <- Ln, Nat2Z.id, firstn_all. rewrite <- Ly, firstn_all. rewrite Ly, Ln, Lp. repeat f_equal. lia.
  - symmetry. destruct (Z.ltb_spec (len (points l1)) (len (points l1) + len (verts g) - 1)); [|reflexivity].
    destruct (verts g) as [|x v] eqn:Vg; [congruence|]. destruct (rev v) as [|y w] eqn:Rv.
    + apply (f_equal (@rev _)) in Rv. rewrite rev_involutive in Rv. subst v. exfalso. unfold len, pt in *. cbn [length rev] in *. lia.
    + assert (Ev : v = rev w ++ [y]) by (apply (f_equal (@rev _)) in Rv; now rewrite rev_involutive in Rv). 
      cbn [open_end] in O. rewrite Rv in O. rewrite X, Y.
      assert (V1 : forall f : Q * Q -> Q, vget (map f (points l1 ++ x :: v)) (len (points l1)) = Ok (f x)) by (intros f; rewrite map_app; cbn [map]; apply vget_at; now rewrite len_map).
      assert (V2 : forall f : Q * Q -> Q, vget (map f (points l1 ++ x :: v)) (len (points l1) + len (x :: v) - 1) = Ok (f y)).
      { intros f. rewrite Ev. replace (map f (points l1 ++ x :: rev w ++ [y])) with (map f (points l1 ++ x :: rev w) ++ [f y]) by (rewrite !map_app; cbn [map]; rewrite map_app, <- app_assoc; reflexivity).
        apply vget_at. unfold len, pt. rewrite map_length, app_length. cbn [length]. rewrite app_length. cbn [length]. lia. }
      rewrite !V1. cbn [bind]. rewrite V2. cbn [bind]. rewrite ?V1. cbn [bind]. rewrite V2. cbn [bind]. f_equal.
      destruct (Qeq_bool (fst x) (fst y)) eqn:E1, (Qeq_bool (snd x) (snd y)) eqn:E2; auto. qb. exfalso. apply O. split; auto.
Qed.

Lemma reads_next out l1 g an : verts g <> [] -> open_end (verts g) ->
  reads false out l1 (verts g) an (fun r => r_color r = col g /\ (verts g <> [] -> r_layer r = lay g)) ->
  reads false (out ++ [LNext]) (l1 ++ [g]) [] an (fun r => r_color r = col g).
Proof.
  intros N O (r & A & B & C & D & E & F & G & I & J & K1 & K2). eexists. rewrite read_all_app, A. cbn [bind read_all read_line orb]. rewrite (finish_open r l1 g B C D N O). cbn [bind].
  split; [reflexivity|]. cbn [r_xs r_ys r_beg r_counts r_closed r_colors r_layers r_annos r_color]. rewrite B, C, E, F, G, I, J, K1, (K2 N), app_nil_r.
  assert (Pp : points (l1 ++ [g]) = points l1 ++ verts g) by (rewrite points_app; cbn [points flat_map]; now rewrite app_nil_r). rewrite Pp.
  rewrite !(map_app _ l1 [g]). cbn [map]. repeat split; reflexivity.
Qed.

Lemma firstn_more {A} (l : list A) n x : nth_error l n = Some x -> firstn (S n) l = firstn n l ++ [x].
Proof. revert n. induction l as [|y l IH]; intros [|n] H; cbn in H; try discriminate; [injection H as ->; reflexivity|]. cbn [firstn app]. now rewrite <- IH. Qed.

Lemma write_ok d l default : shows d l -> cloud d = false ->
  (forall g, In g l -> verts g <> [] /\ open_end (verts g) /\ color_of (col g) = col g /\ layer_of (lay g) = lay g) ->
  exists out, write_poly d default false = Ok out /\ reads false out l [] (annos d) (fun _ => True).
Proof.
  intros S Cl Ok_l. unfold write_poly.
  match goal with |- context [for_up 0 ?n ?body ?s0] =>
    destruct (for_list l (fun l1 t => let '(start, count, prev, out) := t in start = len (points (removelast l1)) /\ 0 <= count <= len (annos d) /\
       reads false out l1 [] (firstn (Z.to_nat count) (annos d)) (fun r => l1 <> [] -> r_color r = prev)) body n s0) as (t & Et & It)
  end.
  - apply S.
  - split; [reflexivity|]. split; [pose proof (len_pos (annos d)); lia|]. eexists. split; [reflexivity|]. repeat split. congruence.
  - intros l1 g l2 [[[start count] prev] out] El (Hs & Hc & Hr). destruct (Ok_l g) as (Ng & Og & Cg & Lg); [rewrite El; apply in_or_app; right; now left|].
    subst l. rewrite (count_mid d l1 g l2) by auto. cbn [bind].
    assert (Pos : 0 < len (verts g)) by (destruct (verts g) as [|x v]; [congruence|rewrite len_cons; pose proof (len_pos v); lia]).
    destruct (Z.leb_spec (len (verts g)) 0); [lia|].
    assert (St : (if 0 <? len l1 then m <- vget (num_verts d) (len l1 - 1) ;; Ok (start + m) else Ok start) = Ok (len (points l1))).
    { destruct l1 as [|y a] using rev_ind.
      - cbn. now rewrite Hs.
      - clear IHa. rewrite removelast_last in Hs. rewrite len_snoc. destruct (Z.ltb_spec 0 (len a + 1)); [|pose proof (len_pos a); lia].
        rewrite <- app_assoc in S. cbn [app] in S. rewrite (count_mid d a y (g :: l2)) by (auto; lia). cbn [bind].
        rewrite Hs, points_app, len_app. cbn [points flat_map]. rewrite app_nil_r. reflexivity. }
    rewrite St. cbn [bind]. destruct (shows_mid d l1 g l2 S) as (A & B & _ & _ & Co & La). rewrite Co. rewrite vget_at by now rewrite len_map. cbn [bind]. cbv zeta. rewrite La, vget_at by now rewrite len_map. cbn [bind].
    set (out1 := if negb (str_eqb (col g) prev) || (len l1 =? 0) then out ++ [LColor (col g)] else out).
    assert (R1 : reads false out1 l1 [] (firstn (Z.to_nat count) (annos d)) (fun r => r_color r = col g)).
    { unfold out1. destruct (negb (str_eqb (col g) prev) || (len l1 =? 0)) eqn:T; [eapply reads_color; eauto|].
      apply orb_false_iff in T as [T1 T2]. apply negb_false_iff in T1. eapply reads_q; [|exact Hr]. intros r Hq. cbn beta in Hq. rewrite Hq.
      - symmetry. now apply str_eqb_spec.
      - intros ->. discriminate. }
    match goal with |- context [for_up 0 (len (verts g)) ?body ?s0] =>
      destruct (for_list (verts g) (fun a t => 0 <= fst t <= len (annos d) /\ reads false (snd t) l1 a (firstn (Z.to_nat (fst t)) (annos d)) (fun r => r_color r = col g /\ (a <> [] -> r_layer r = lay g))) body (len (verts g)) s0) as ([c1 out2] & E2 & Hc2 & R2)
    end.
    + reflexivity.
    + split; auto. eapply reads_q; [|exact R1]. intros r Hq. split; auto. congruence.
    + intros a x b [c0 o0] Vg [Hc0 Hr0]. cbn [fst snd] in *.
      assert (Vx : nth_error (verts g) (length a) = Some x) by (rewrite Vg, nth_error_app2, Nat.sub_diag by lia; reflexivity).
      rewrite A, B. rewrite (vget_nth (map fst (points l1)) (map fst (verts g)) (map fst (points l2)) (length a) (fst x)) by (try (apply map_nth_error; exact Vx); now rewrite len_map). cbn [bind].
      rewrite (vget_nth (map snd (points l1)) (map snd (verts g)) (map snd (points l2)) (length a) (snd x)) by (try (apply map_nth_error; exact Vx); now rewrite len_map). cbn [bind].
      pose proof (reads_vert o0 l1 a _ x (lay g) (col g) Lg Hr0) as Rv.
      destruct (nth_error (annos d) (Z.to_nat c0)) as [an|] eqn:An.
      * eexists. split; [reflexivity|]. cbn [fst snd].
        assert (Lc : (Z.to_nat c0 < length (annos d))%nat) by (apply nth_error_Some; congruence). split; [unfold len in *; lia|].
        replace (Z.to_nat (c0 + 1)) with (Datatypes.S (Z.to_nat c0)) by lia. rewrite (firstn_more _ _ _ An). apply reads_anno; auto.
      * eexists. split; [reflexivity|]. cbn [fst snd]. auto.
    + rewrite E2. cbn [bind fst snd]. rewrite Cl. eexists. split; [reflexivity|]. cbn [fst snd] in *. split; [now rewrite removelast_last|]. split; auto.
      eapply reads_q; [|apply (reads_next out2 l1 g _ Ng Og R2)]. auto.
  - rewrite Et. cbn [bind]. destruct t as [[[start count] prev] out]. destruct It as (_ & Hc & Hr). eexists. split; [reflexivity|].
    rewrite <- (firstn_skipn (Z.to_nat count) (annos d)) at 2. revert Hr. generalize (firstn (Z.to_nat count) (annos d)) (skipn (Z.to_nat count) (annos d)). intros an rest Hr.
    apply reads_q with (q' := fun _ => True) in Hr; auto. clear Et; revert out an Hr. induction rest as [|x rest IH]; intros out an Hr; cbn [map].
    + now rewrite !app_nil_r.
    + change (anno_line x :: map anno_line rest) with ([anno_line x] ++ map anno_line rest). rewrite app_assoc. change (x :: rest) with ([x] ++ rest). rewrite (app_assoc an). apply IH. now apply reads_anno.
Qed.

Lemma round_trip_ok d l default : shows d l -> cloud d = false ->
  (forall g, In g l -> verts g <> [] /\ open_end (verts g) /\ color_of (col g) = col g /\ layer_of (lay g) = lay g) ->
  exists out e, write_poly d default false = Ok out /\ read_poly color_of layer_of false out = Ok e /\
    shows e (map plain l) /\ annos e = map spaced (annos d) /\ cloud e = false /\ vert_annos e = [] /\ poly_annos e = [] /\ layer_annos e = [].
Proof.
  intros S Cl Hl. destruct (write_ok d l default S Cl Hl) as (out & E & r & A & B & C & D & F & G & I & J & K & _). exists out. unfold read_poly.
  assert (R : read_lines color_of layer_of false out (Reader [] [] 0 [] yellow [] [] [] [] []) = Ok r).
  { destruct out as [|ln out]; [exact A|].
    assert (S0 : sane (Reader [] [] 0 [] yellow [] [] [] [] [])) by (unfold sane; cbn; lia).
    destruct (read_end false (ln :: out) _ S0) as (r1 & r2 & A1 & A2 & A3); [discriminate|]. rewrite A in A1. injection A1 as <-. rewrite A3, <- A2. 
    rewrite app_nil_r in B. assert (Lt : (r_beg r <? Z.of_nat (length (r_xs r))) = false) by (apply Z.ltb_ge; rewrite D, B, map_length; unfold len, pt; lia). unfold finish. cbv zeta. now rewrite Lt. }
  rewrite R. cbn [bind]. eexists. split; [auto|]. split; [reflexivity|]. cbn [annos cloud vert_annos poly_annos layer_annos]. split; [|auto 10].
  rewrite app_nil_r in B, C.
  assert (Pp : points (map plain l) = points l) by (unfold points; clear; induction l; cbn [map flat_map]; [reflexivity|]; now rewrite IHl).
  unfold shows. cbn [xv yv num_verts num_polys total closed colors layers]. rewrite Pp, B, C, F, G, I, J, D, !map_map. cbn [plain verts shut col lay]. unfold len. rewrite !map_length.
  destruct l; cbn [map]; repeat split; reflexivity.
Qed.
End Reading.
