(* The labelling pass: labels linked by edges are exactly the joined pixels. *)
From Coq Require Import ZArith List Lia Bool Relations.
From Verif Require Import Lib.Base Lib.Lists Lib.Img Blob.Model Blob.Spec BIndex.Model BIndex.Spec.
Import ListNotations.
Local Open Scope Z_scope.

Lemma adjacent8_sym x y u v : adjacent8 x y u v -> adjacent8 u v x y.
Proof. unfold adjacent8. lia. Qed.
Lemma joined_valid_l m x y u v : joined m x y u v -> valid m x y.
Proof. induction 1; auto. Qed.
Lemma joined_valid_r m x y u v : joined m x y u v -> valid m u v.
Proof. intros H. inversion H; subst; auto. Qed.
Lemma joined_trans m x y u v w z : joined m x y u v -> joined m u v w z -> joined m x y w z.
Proof. intros A B. induction B; auto. eapply joined_step; [ apply IHB, A | exact H | exact H0 ]. Qed.
Lemma joined_sym m x y u v : joined m x y u v -> joined m u v x y.
Proof.
  induction 1 as [x y H | x y u v u' v' H IH V A]; [ constructor; exact H | ].
  apply joined_trans with u v; [ | exact IH ]. apply joined_step with u' v'; [ constructor; exact V | apply (joined_valid_r _ _ _ _ _ H) | apply adjacent8_sym, A ].
Qed.
Lemma joined_adj m x y u v : valid m x y -> valid m u v -> adjacent8 x y u v -> joined m x y u v.
Proof. intros A B C. apply joined_step with x y; [ constructor; exact A | exact B | exact C ]. Qed.

Lemma linked_mono es es' a b : incl es es' -> linked es a b -> linked es' a b.
Proof.
  intros I H. induction H as [a b H | a | a b H IH | a b c H1 IH1 H2 IH2].
  - apply rst_step, I, H.
  - apply rst_refl.
  - apply rst_sym, IH.
  - apply rst_trans with b; assumption.
Qed.

Section Labels.
  Variable m : img bool.
  Local Notation V := (valid m).

  Definition done (r c x y : Z) : Prop := y < r \/ y = r /\ x < c.

  Record LInv (D : Z -> Z -> Prop) (s : lstate) : Prop := {
    li_cols : icols (dst s) = icols m;
    li_rows : irows (dst s) = irows m;
    li_count : 1 <= count_ s;
    li_lab : forall x y, D x y -> V x y -> 1 <= pix (dst s) x y < count_ s;
    li_zero : forall x y, inside m x y -> ~ (D x y /\ V x y) -> pix (dst s) x y = 0;
    li_adj : forall x y u v, D x y -> V x y -> D u v -> V u v -> adjacent8 x y u v -> linked (edges s) (pix (dst s) x y) (pix (dst s) u v);
    li_same : forall x y u v, D x y -> V x y -> D u v -> V u v -> pix (dst s) x y = pix (dst s) u v -> joined m x y u v;
    li_edge : forall a b, In (a, b) (edges s) -> exists x y u v, D x y /\ V x y /\ D u v /\ V u v /\
        pix (dst s) x y = a /\ pix (dst s) u v = b /\ joined m x y u v;
    li_all : forall l, 1 <= l < count_ s -> exists x y, D x y /\ V x y /\ pix (dst s) x y = l }.

  Lemma LInv_ext D D' s : (forall x y, inside m x y -> (D x y <-> D' x y)) -> LInv D s -> LInv D' s.
  Proof.
    intros E [a b c d e f g h i].
    assert (E1 : forall x y, V x y -> D' x y -> D x y) by (intros x y (I & _) X; apply E; assumption).
    assert (E2 : forall x y, V x y -> D x y -> D' x y) by (intros x y (I & _) X; apply E; assumption).
    constructor; auto.
    - intros x y I N. apply e; [ exact I | ]. intros (X & Y). apply N. auto.
    - intros p q H. destruct (h _ _ H) as (x & y & u & v & D1 & V1 & D2 & V2 & R). exists x, y, u, v. split; [ auto | ]. split; [ auto | ]. split; [ auto | ]. auto.
    - intros l H. destruct (i _ H) as (x & y & D1 & V1 & R). exists x, y. auto.
  Qed.

  (* the current pixel's label and the edges after looking at the pixels N *)
  Record VInv (s : lstate) (N : Z -> Z -> Prop) (d : Z) (es : list (Z * Z)) : Prop := {
    vi_d : d = 0 /\ (forall x y, ~ N x y) \/ d <> 0 /\ exists x y, N x y /\ d = pix (dst s) x y;
    vi_link : forall x y, N x y -> linked es (pix (dst s) x y) d;
    vi_incl : incl (edges s) es;
    vi_new : forall a b, In (a, b) es -> In (a, b) (edges s) \/
      exists x y u v, N x y /\ N u v /\ a = pix (dst s) x y /\ b = pix (dst s) u v }.

  Lemma visit_ok D s N d es x y : LInv D s -> VInv s N d es -> inside m x y -> D x y ->
    exists d' es', visit m s x y (d, es) = Ok (d', es') /\ VInv s (fun u v => N u v \/ u = x /\ v = y /\ V x y) d' es'.
  Proof.
    intros L [Hd Hl Hi Hn] I Dx. unfold visit. rewrite get_in by exact I. cbn [bind]. destruct (pix m x y) eqn:P.
    - assert (Vx : V x y) by (split; assumption). pose proof (li_lab _ _ L x y Dx Vx) as Lx.
      rewrite get_in by (unfold inside; rewrite (li_cols _ _ L), (li_rows _ _ L); exact I). cbn [bind].
      set (l := pix (dst s) x y) in *. destruct (negb (d =? 0) && negb (d =? l)) eqn:Q.
      + apply andb_prop in Q. destruct Q as (Q1 & Q2). apply negb_true_iff, Z.eqb_neq in Q1. apply negb_true_iff, Z.eqb_neq in Q2.
        destruct Hd as [(X & _) | (_ & u0 & v0 & N0 & E0)]; [ contradiction | ].
        exists d, (es ++ [(l, d)]). split; [ reflexivity | ]. constructor.
        * right. split; [ exact Q1 | ]. exists u0, v0. auto.
        * intros u v [Nu | (-> & -> & _)].
          -- apply linked_mono with es; [ apply incl_appl, incl_refl | apply Hl, Nu ].
          -- fold l. apply rst_step, in_or_app. right; left; reflexivity.
        * apply incl_appl, Hi.
        * intros a b H. apply in_app_or in H. destruct H as [H | [H | []]].
          -- destruct (Hn _ _ H) as [H1 | (x1 & y1 & x2 & y2 & N1 & N2 & E)]; [ left; exact H1 | right; exists x1, y1, x2, y2; auto ].
          -- injection H as <- <-. right. exists x, y, u0, v0. auto.
      + exists l, es. split; [ reflexivity | ].
        assert (Dl : d = 0 \/ d = l).
        { apply andb_false_iff in Q. rewrite !negb_false_iff, !Z.eqb_eq in Q. exact Q. }
        constructor.
        * right. split; [ lia | ]. exists x, y. auto.
        * intros u v [Nu | (-> & -> & _)]; [ | apply rst_refl ].
          destruct Dl as [Dl | Dl]; [ | rewrite <- Dl; apply Hl, Nu ].
          destruct Hd as [(_ & X) | (X & _)]; [ destruct (X _ _ Nu) | contradiction ].
        * exact Hi.
        * intros a b H. destruct (Hn _ _ H) as [H1 | (x1 & y1 & x2 & y2 & N1 & N2 & E)]; [ left; exact H1 | right; exists x1, y1, x2, y2; auto ].
    - exists d, es. split; [ reflexivity | ].
      assert (Nv : ~ V x y) by (intros (_ & X); congruence). constructor.
      + destruct Hd as [(X & Y) | (X & u & v & Y & E)]; [ left; split; [ exact X | ] | right; split; [ exact X | exists u, v; auto ] ].
        intros u v [H | (_ & _ & H)]; [ exact (Y _ _ H) | contradiction ].
      + intros u v [H | (_ & _ & H)]; [ apply Hl, H | contradiction ].
      + exact Hi.
      + intros a b H. destruct (Hn _ _ H) as [H1 | (x1 & y1 & x2 & y2 & N1 & N2 & E)]; [ left; exact H1 | right; exists x1, y1, x2, y2; auto ].
  Qed.
  Lemma visit_start s : VInv s (fun _ _ => False) 0 (edges s).
  Proof. constructor; [ left; auto | tauto | apply incl_refl | auto ]. Qed.

  (* finishing a valid pixel *)
  Definition plus (D : Z -> Z -> Prop) (c r : Z) (x y : Z) : Prop := D x y \/ x = c /\ y = r.
  Lemma place_ok D s N d es c r : LInv D s -> VInv s N d es -> V c r -> ~ D c r ->
    (forall x y, N x y <-> D x y /\ V x y /\ adjacent8 x y c r) ->
    forall i, put (dst s) c r (if d =? 0 then count_ s else d) = Ok i ->
    LInv (plus D c r) (LS i (if d =? 0 then count_ s + 1 else count_ s) es).
  Proof.
    intros L W Vp Nd HN i E. destruct L as [a b k dl z adj same edge all]. destruct W as [Hd Hl Hi Hn].
    assert (Ip : inside (dst s) c r) by (unfold inside; rewrite a, b; apply Vp).
    destruct (put_in (dst s) c r (if d =? 0 then count_ s else d) Ip) as (i' & E' & C' & R' & P1 & P2).
    rewrite E in E'. injection E' as <-.
    assert (Pd : forall x y, D x y -> V x y -> pix i x y = pix (dst s) x y).
    { intros x y Dx Vx. apply P2. destruct (Z.eq_dec x c) as [X | X]; [ | auto ]. destruct (Z.eq_dec y r) as [Y | Y]; [ | auto ]. subst. contradiction. }
    set (lab := if d =? 0 then count_ s else d) in *. set (cnt := if d =? 0 then count_ s + 1 else count_ s).
    assert (Cc : count_ s <= cnt <= count_ s + 1) by (unfold cnt; destruct (d =? 0); lia).
    assert (Case : (d = 0 /\ lab = count_ s /\ cnt = count_ s + 1 /\ forall x y, ~ N x y) \/
                   (d <> 0 /\ lab = d /\ cnt = count_ s /\ exists x y, N x y /\ d = pix (dst s) x y)).
    { unfold lab, cnt. destruct (d =? 0) eqn:Q; [ apply Z.eqb_eq in Q | apply Z.eqb_neq in Q ].
      - left. destruct Hd as [(_ & X) | (X & _)]; [ auto | contradiction ].
      - right. destruct Hd as [(X & _) | (X & Y)]; [ contradiction | auto ]. }
    assert (Lr : 1 <= lab < cnt).
    { destruct Case as [(X & Y & Z & _) | (X & Y & Z & x & y & Nx & Ex)]; [ lia | ].
      apply HN in Nx. destruct Nx as (Dx & Vx & _). specialize (dl _ _ Dx Vx). lia. }
    constructor; cbn [dst count_ edges]; [ lia | lia | lia | | | | | | ].
    - intros x y [Dx | (-> & ->)] Vx; [ rewrite Pd by assumption; specialize (dl _ _ Dx Vx); lia | rewrite P1; exact Lr ].
    - intros x y Ix Nx. assert (X : x <> c \/ y <> r).
      { destruct (Z.eq_dec x c); [ | auto ]. destruct (Z.eq_dec y r); [ | auto ]. subst. exfalso. apply Nx. split; [ right; auto | exact Vp ]. }
      rewrite P2 by exact X. apply z; [ exact Ix | ]. intros (Dx & Vx). apply Nx. split; [ left; exact Dx | exact Vx ].
    - assert (Near : forall x y, D x y -> V x y -> adjacent8 x y c r -> linked es (pix i x y) (pix i c r)).
      { intros x y Dx Vx Ax. rewrite Pd, P1 by assumption. assert (Nx : N x y) by (apply HN; auto).
        destruct Case as [(_ & _ & _ & X) | (_ & Y & _)]; [ destruct (X _ _ Nx) | ]. rewrite Y. apply Hl, Nx. }
      intros x y u v [Dx | (-> & ->)] Vx [Du | (-> & ->)] Vu A.
      + rewrite !Pd by assumption. apply linked_mono with (edges s); [ exact Hi | apply adj; assumption ].
      + apply Near; assumption.
      + apply rst_sym, Near; [ assumption | assumption | apply adjacent8_sym, A ].
      + apply rst_refl.
    - assert (Sm : forall x y, D x y -> V x y -> pix i x y = pix i c r -> joined m x y c r).
      { intros x y Dx Vx Ex. rewrite Pd, P1 in Ex by assumption.
        destruct Case as [(_ & Y & _) | (_ & Y & _ & u & v & Nu & Eu)]; [ specialize (dl _ _ Dx Vx); lia | ].
        apply HN in Nu. destruct Nu as (Du & Vu & Au). apply joined_trans with u v; [ apply same; auto; congruence | apply joined_adj; assumption ]. }
      intros x y u v [Dx | (-> & ->)] Vx [Du | (-> & ->)] Vu E0.
      + rewrite !Pd in E0 by assumption. apply same; assumption.
      + apply Sm; assumption.
      + apply joined_sym, Sm; auto.
      + constructor; exact Vp.
    - intros p q H. destruct (Hn _ _ H) as [H1 | (x1 & y1 & x2 & y2 & N1 & N2 & -> & ->)].
      + destruct (edge _ _ H1) as (x & y & u & v & D1 & V1 & D2 & V2 & E1 & E2 & J). exists x, y, u, v.
        rewrite !Pd by assumption. unfold plus. auto 10.
      + apply HN in N1. apply HN in N2. destruct N1 as (D1 & V1 & A1). destruct N2 as (D2 & V2 & A2). exists x1, y1, x2, y2.
        rewrite !Pd by assumption. unfold plus. split; [ auto | ]. split; [ auto | ]. split; [ auto | ]. split; [ auto | ].
        split; [ reflexivity | ]. split; [ reflexivity | ].
        apply joined_trans with c r; [ apply joined_adj; assumption | apply joined_sym, joined_adj; assumption ].
    - intros l Hl0. destruct (Z_lt_ge_dec l (count_ s)) as [X | X].
      + destruct (all l ltac:(lia)) as (x & y & Dx & Vx & Ex). exists x, y. split; [ left; exact Dx | ]. split; [ exact Vx | ]. rewrite Pd by assumption. exact Ex.
      + exists c, r. split; [ right; auto | ]. split; [ exact Vp | ]. rewrite P1.
        destruct Case as [(_ & Y & Z & _) | (_ & _ & Z & _)]; lia.
  Qed.
  (* a pixel that is not valid *)
  Lemma skip_ok D s c r : LInv D s -> inside m c r -> pix m c r = false -> LInv (plus D c r) s.
  Proof.
    intros [a b k dl z adj same edge all] I P.
    assert (X : forall x y, V x y -> plus D c r x y -> D x y).
    { intros x y (_ & Vx) [H | (-> & ->)]; [ exact H | congruence ]. }
    constructor; auto.
    - intros x y Ix N. apply z; [ exact Ix | ]. intros (Dx & Vx). apply N. split; [ left; exact Dx | exact Vx ].
    - intros p q H. destruct (edge _ _ H) as (x & y & u & v & D1 & V1 & D2 & V2 & R). exists x, y, u, v. unfold plus. auto 10.
    - intros l H. destruct (all _ H) as (x & y & Dx & R). exists x, y. unfold plus. auto.
  Qed.

  Hypothesis Hc : 1 <= icols m.
  Hypothesis Hr : 1 <= irows m.

  Lemma label_corner_ok : exists s, label_corner m (LS (Img (icols m) (irows m) (fun _ _ => 0)) 1 []) = Ok s /\ LInv (done 0 1) s.
  Proof.
    assert (L0 : LInv (fun _ _ => False) (LS (Img (icols m) (irows m) (fun _ _ => 0)) 1 [])).
    { constructor; cbn [dst count_ edges icols irows pix]; try tauto; try lia. all: intros; exfalso; (contradiction || lia). }
    assert (I0 : inside m 0 0) by (unfold inside; lia). unfold label_corner. rewrite get_in by exact I0. cbn [bind].
    destruct (pix m 0 0) eqn:P.
    - destruct (put_in (dst (LS (Img (icols m) (irows m) (fun _ _ => 0)) 1 [])) 0 0 1 I0) as (i & E & _). cbn [dst count_ edges] in *. rewrite E. cbn [bind].
      eexists. split; [ reflexivity | ].
      apply LInv_ext with (plus (fun _ _ => False) 0 0). { unfold plus, done, inside. intros; lia. }
      apply (place_ok (fun _ _ => False) (LS (Img (icols m) (irows m) (fun _ _ => 0)) 1 []) (fun _ _ => False) 0 []).
      + exact L0.
      + apply visit_start.
      + split; assumption.
      + tauto.
      + tauto.
      + exact E.
    - eexists. split; [ reflexivity | ]. apply LInv_ext with (plus (fun _ _ => False) 0 0). { unfold plus, done, inside. intros; lia. }
      apply skip_ok; assumption.
  Qed.

  Lemma label_top_ok c s : 1 <= c < icols m -> LInv (done 0 c) s -> exists s', label_top m c s = Ok s' /\ LInv (done 0 (c + 1)) s'.
  Proof.
    intros C L. assert (I : inside m c 0) by (unfold inside; lia). assert (Ip : inside m (c - 1) 0) by (unfold inside; lia).
    assert (Ext : forall s', LInv (plus (done 0 c) c 0) s' -> LInv (done 0 (c + 1)) s').
    { intros s'. apply LInv_ext. unfold plus, done, inside. intros; lia. }
    unfold label_top. rewrite get_in by exact I. cbn [bind]. destruct (pix m c 0) eqn:P.
    - assert (Vc : V c 0) by (split; assumption).
      rewrite get_in by exact Ip. cbn [bind].
      destruct (visit_ok _ s _ _ _ (c - 1) 0 L (visit_start s) Ip) as (d & es & Ev & W); [ unfold done; lia | ].
      assert (HN : forall x y, False \/ x = c - 1 /\ y = 0 /\ V (c - 1) 0 <-> done 0 c x y /\ V x y /\ adjacent8 x y c 0).
      { intros x y. unfold done, adjacent8. split.
        - intros [[] | (-> & -> & H)]. split; [ lia | ]. split; [ exact H | lia ].
        - intros (D & H & A). right. assert (Hx : x = c - 1 /\ y = 0) by (destruct H as ((? & ?) & _); lia). destruct Hx as (-> & ->). auto. }
      assert (Is : inside (dst s) c 0) by (unfold inside in *; rewrite (li_cols _ _ L), (li_rows _ _ L); exact I).
      assert (Isp : inside (dst s) (c - 1) 0) by (unfold inside in *; rewrite (li_cols _ _ L), (li_rows _ _ L); exact Ip).
      unfold visit in Ev. rewrite get_in in Ev by exact Ip. cbn [bind] in Ev.
      destruct (pix m (c - 1) 0) eqn:Pp.
      + rewrite get_in in * by exact Isp. cbn [bind andb negb Z.eqb] in Ev |- *. injection Ev as <- <-.
        pose proof (li_lab _ _ L (c - 1) 0 ltac:(unfold done; lia) ltac:(split; assumption)) as Ll.
        set (l := pix (dst s) (c - 1) 0) in *. assert (Q : (l =? 0) = false) by (apply Z.eqb_neq; lia).
        destruct (put_in (dst s) c 0 l Is) as (i & E & _). rewrite E. cbn [bind]. eexists. split; [ reflexivity | ]. apply Ext.
        pose proof (place_ok _ _ _ _ _ c 0 L W Vc ltac:(unfold done; lia) HN i) as H. rewrite Q in H. apply H, E.
      + injection Ev as <- <-. destruct (put_in (dst s) c 0 (count_ s) Is) as (i & E & _). rewrite E. cbn [bind]. eexists. split; [ reflexivity | ]. apply Ext.
        exact (place_ok _ _ _ _ _ c 0 L W Vc ltac:(unfold done; lia) HN i E).
    - eexists. split; [ reflexivity | ]. apply Ext, skip_ok; assumption.
  Qed.

  Lemma label_pixel_ok r c s : 1 <= r < irows m -> 0 <= c < icols m -> LInv (done r c) s ->
    exists s', label_pixel m r c s = Ok s' /\ LInv (done r (c + 1)) s'.
  Proof.
    intros R C L. assert (I : inside m c r) by (unfold inside; lia).
    assert (Ext : forall s', LInv (plus (done r c) c r) s' -> LInv (done r (c + 1)) s').
    { intros s'. apply LInv_ext. unfold plus, done, inside. intros; lia. }
    unfold label_pixel. rewrite get_in by exact I. cbn [bind]. destruct (pix m c r) eqn:P.
    2:{ eexists. split; [ reflexivity | ]. apply Ext, skip_ok; assumption. }
    assert (Vc : V c r) by (split; assumption).
    assert (Is : inside (dst s) c r) by (unfold inside in *; rewrite (li_cols _ _ L), (li_rows _ _ L); exact I).
    rewrite get_in by exact Is. cbn [bind]. rewrite (li_zero _ _ L c r I) by (unfold done; intros (X & _); lia).
    (* left and upper left *)
    assert (S1 : exists d es (N : Z -> Z -> Prop),
      (if negb (c =? 0) then de <- visit m s (c - 1) r (0, edges s) ;; visit m s (c - 1) (r - 1) de else Ok (0, edges s)) = Ok (d, es) /\
      VInv s N d es /\ forall x y, N x y <-> V x y /\ x = c - 1 /\ (y = r \/ y = r - 1)).
    { destruct (c =? 0) eqn:Q; [ apply Z.eqb_eq in Q | apply Z.eqb_neq in Q ]; cbn [negb].
      - exists 0, (edges s), (fun _ _ => False). split; [ reflexivity | ]. split; [ apply visit_start | ]. intros x y. split; [ tauto | ].
        intros (((? & ?) & _) & ? & _). lia.
      - destruct (visit_ok _ s _ _ _ (c - 1) r L (visit_start s)) as (d & es & E & W); [ unfold inside; lia | unfold done; lia | ]. rewrite E. cbn [bind].
        destruct (visit_ok _ s _ _ _ (c - 1) (r - 1) L W) as (d' & es' & E' & W'); [ unfold inside; lia | unfold done; lia | ].
        exists d', es'. eexists. split; [ exact E' | ]. split; [ exact W' | ]. cbv beta. intros x y. split.
        + intros [[[] | (-> & -> & H)] | (-> & -> & H)]; auto.
        + intros (H & -> & [-> | ->]); [ left; right; auto | right; auto ]. }
    destruct S1 as (d1 & es1 & N1 & E1 & W1 & H1). rewrite E1. cbn [bind]. clear E1.
    destruct (visit_ok _ s _ _ _ c (r - 1) L W1) as (d2 & es2 & E2 & W2); [ unfold inside; lia | unfold done; lia | ]. rewrite E2. cbn [bind]. clear E2.
    assert (S3 : exists d es (N : Z -> Z -> Prop),
      (if negb (c =? icols m - 1) then visit m s (c + 1) (r - 1) (d2, es2) else Ok (d2, es2)) = Ok (d, es) /\
      VInv s N d es /\ forall x y, N x y <-> done r c x y /\ V x y /\ adjacent8 x y c r).
    { destruct (c =? icols m - 1) eqn:Q; [ apply Z.eqb_eq in Q | apply Z.eqb_neq in Q ]; cbn [negb].
      - exists d2, es2. eexists. split; [ reflexivity | ]. split; [ exact W2 | ]. cbv beta. intros x y. rewrite H1. unfold done, adjacent8. split.
        + intros [(H & -> & X) | (-> & -> & H)]; (split; [ lia | split; [ exact H | lia ] ]).
        + intros (D & H & A). destruct (Z.eq_dec x c) as [X | X].
          * right. assert (y = r - 1) by lia. subst. auto.
          * left. split; [ exact H | ]. destruct H as ((? & ?) & _). lia.
      - destruct (visit_ok _ s _ _ _ (c + 1) (r - 1) L W2) as (d' & es' & E' & W'); [ unfold inside; lia | unfold done; lia | ].
        exists d', es'. eexists. split; [ exact E' | ]. split; [ exact W' | ]. cbv beta. intros x y. rewrite H1. unfold done, adjacent8. split.
        + intros [[(H & -> & X) | (-> & -> & H)] | (-> & -> & H)]; (split; [ lia | split; [ exact H | lia ] ]).
        + intros (D & H & A). destruct (Z.eq_dec x c) as [X | X].
          * left. right. assert (y = r - 1) by lia. subst. auto.
          * destruct (Z.eq_dec x (c + 1)) as [Y | Y].
            -- right. assert (y = r - 1) by lia. subst. auto.
            -- left. left. split; [ exact H | lia ]. }
    destruct S3 as (d & es & N & E3 & W & HN). rewrite E3. cbn [bind]. clear E3.
    destruct (put_in (dst s) c r (if d =? 0 then count_ s else d) Is) as (i & E & _).
    pose proof (place_ok _ _ _ _ _ c r L W Vc ltac:(unfold done; lia) HN i E) as F.
    destruct (d =? 0); (rewrite E; cbn [bind]; eexists; split; [ reflexivity | apply Ext, F ]).
  Qed.

  Lemma label_image_ok : exists s, label_image m = Ok s /\ LInv (fun _ _ => True) s.
  Proof.
    destruct label_corner_ok as (s0 & E0 & L0). unfold label_image. rewrite E0. cbn [bind].
    destruct (for_up_inv (fun c s => LInv (done 0 c) s) (label_top m) 1 (icols m) s0 ltac:(lia) L0) as (s1 & E1 & L1).
    { intros k s K L. apply label_top_ok; assumption. }
    rewrite E1. cbn [bind].
    destruct (for_up_inv (fun r s => LInv (done r 0) s) (fun r s => for_up 0 (icols m) (label_pixel m r) s) 1 (irows m) s1 ltac:(lia)) as (s2 & E2 & L2).
    - revert L1. apply LInv_ext. unfold done, inside. intros; lia.
    - intros r s K L. destruct (for_up_inv (fun c s => LInv (done r c) s) (label_pixel m r) 0 (icols m) s ltac:(lia) L) as (s' & E' & L').
      { intros c t C Lc. apply label_pixel_ok; assumption. }
      exists s'. split; [ exact E' | ]. revert L'. apply LInv_ext. unfold done, inside. intros; lia.
    - exists s2. split; [ exact E2 | ]. revert L2. apply LInv_ext. unfold done, inside. intros; lia.
  Qed.

  (* joined pixels have linked labels and the other way round *)
  Lemma joined_linked s x y u v : LInv (fun _ _ => True) s -> joined m x y u v -> linked (edges s) (pix (dst s) x y) (pix (dst s) u v).
  Proof.
    intros L J. induction J as [x y H | x y u v u' v' J IH H A]; [ apply rst_refl | ].
    apply rst_trans with (pix (dst s) u v); [ exact IH | ]. apply (li_adj _ _ L); auto. apply (joined_valid_r _ _ _ _ _ J).
  Qed.
  Lemma linked_joined s a b : LInv (fun _ _ => True) s -> linked (edges s) a b ->
    a = b \/ exists x y u v, V x y /\ V u v /\ pix (dst s) x y = a /\ pix (dst s) u v = b /\ joined m x y u v.
  Proof.
    intros L H. induction H as [a b H | a | a b H IH | a b c H1 IH1 H2 IH2].
    - right. destruct (li_edge _ _ L _ _ H) as (x & y & u & v & _ & V1 & _ & V2 & R). exists x, y, u, v. auto.
    - left; reflexivity.
    - destruct IH as [-> | (x & y & u & v & V1 & V2 & E1 & E2 & J)]; [ auto | ]. right. exists u, v, x, y. split; [ auto | ]. split; [ auto | ].
      split; [ auto | ]. split; [ auto | ]. apply joined_sym, J.
    - destruct IH1 as [-> | (x & y & u & v & V1 & V2 & E1 & E2 & J)]; [ exact IH2 | ].
      destruct IH2 as [<- | (x' & y' & u' & v' & V1' & V2' & E1' & E2' & J')]; [ right; exists x, y, u, v; auto | ].
      right. exists x, y, u', v'. split; [ auto | ]. split; [ auto | ]. split; [ auto | ]. split; [ auto | ].
      apply joined_trans with u v; [ exact J | ]. apply joined_trans with x' y'; [ | exact J' ]. apply (li_same _ _ L); auto. congruence.
  Qed.
  Lemma linked_iff s x y u v : LInv (fun _ _ => True) s -> V x y -> V u v ->
    linked (edges s) (pix (dst s) x y) (pix (dst s) u v) <-> joined m x y u v.
  Proof.
    intros L V1 V2. split; [ | apply joined_linked, L ]. intros H.
    destruct (linked_joined _ _ _ L H) as [E | (x' & y' & u' & v' & V1' & V2' & E1 & E2 & J)].
    - apply (li_same _ _ L); auto.
    - apply joined_trans with x' y'; [ apply (li_same _ _ L); auto | ]. apply joined_trans with u' v'; [ exact J | apply (li_same _ _ L); auto ].
  Qed.
  Lemma linked_zero s b : LInv (fun _ _ => True) s -> linked (edges s) 0 b -> b = 0.
  Proof.
    intros L H. destruct (linked_joined _ _ _ L H) as [E | (x & y & u & v & V1 & _ & E & _)]; [ auto | ].
    pose proof (li_lab _ _ L x y I V1). lia.
  Qed.
End Labels.
