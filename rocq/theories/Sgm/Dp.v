(* The accumulated costs are differences of least energies. *)
From Coq Require Import ZArith List Bool Lia.
From Verif Require Import Lib.Base Lib.Lists ImgMem.Model Lib.Img Sgm.Model Sgm.Spec Sgm.Mem.
Import ListNotations.
Local Open Scope Z_scope.

Section D.
Variables (R : box) (q1 q2 : Z).
Hypothesis Q : 0 <= q1 <= q2.

Lemma jump_le gr : 0 <= gr -> q1 <= jump_penalty q1 q2 gr <= q2.
Proof.
  intros Hg. unfold jump_penalty. destruct (Z.ltb_spec 0 gr); [|lia].
  assert (q2 / gr <= q2) by (apply Z.div_le_upper_bound; nia). lia.
Qed.

Lemma least_le bp L d : in_box bp d -> prior_least bp L q2 <= L d.
Proof.
  intros I. unfold prior_least. destruct (minl_spec (255 + q2) (map L (cells bp))) as (_ & _ & C).
  apply C. apply in_map. now apply in_cells.
Qed.
Lemma least_cap bp L : prior_least bp L q2 <= 255 + q2.
Proof. unfold prior_least. destruct (minl_spec (255 + q2) (map L (cells bp))) as (_ & A & _). exact A. Qed.
Lemma least_at bp L : (exists d, in_box bp d) -> (forall d, in_box bp d -> L d <= 255 + q2) ->
  exists d, in_box bp d /\ L d = prior_least bp L q2.
Proof.
  intros [d0 I0] H. destruct (minl_spec (255 + q2) (map L (cells bp))) as (A & B & C).
  fold (prior_least bp L q2) in *. destruct A as [A|A].
  - exists d0. split; auto. pose proof (least_le bp L d0 I0). specialize (H d0 I0). lia.
  - apply in_map_iff in A as (d & E & I). exists d. apply in_cells in I. auto.
Qed.

Definition low (bp : box) (L : Z * Z -> Z) (gr : Z) (d : Z * Z) : Z :=
  minl (prior_least bp L q2 + jump_penalty q1 q2 gr)
       (map (fun e => prior_costs bp L q2 e + (if same d e then 0 else q1)) (filter (near d) (cells R))).
Lemma low_le_jump bp L gr d : low bp L gr d <= prior_least bp L q2 + jump_penalty q1 q2 gr.
Proof. unfold low. match goal with |- minl ?v ?l <= _ => destruct (minl_spec v l) as (_ & A & _); exact A end. Qed.
Lemma low_le_near bp L gr d e : in_box bp e -> in_box R e -> near d e = true ->
  low bp L gr d <= L e + (if same d e then 0 else q1).
Proof.
  intros I J N. unfold low. match goal with |- context[minl ?v ?l] => destruct (minl_spec v l) as (_ & _ & C) end.
  apply C. apply in_map_iff. exists e. unfold prior_costs. rewrite (proj2 (in_boxb_iff bp e)) by auto. split; auto.
  apply filter_In. rewrite in_cells. auto.
Qed.

Lemma path_cost_bound past : Forall (site_ok R) past -> forall d,
  match past with s :: _ => in_box (s_box s) d -> path_cost R q1 q2 past d <= 255 + q2 | [] => True end.
Proof.
  intros F d. destruct past as [|s rest]; auto. intros I. inversion F as [|? ? [_ Hs] Fr]; subst.
  destruct (Hs d I) as [_ C]. destruct rest as [|q rest]; [cbn [path_cost]; lia|].
  change (path_cost R q1 q2 (s :: q :: rest) d) with
    (step_cost R q1 q2 (s_box q) (path_cost R q1 q2 (q :: rest)) (s_cost s) (grad s q) d).
  unfold step_cost. fold (low (s_box q) (path_cost R q1 q2 (q :: rest)) (grad s q) d).
  pose proof (low_le_jump (s_box q) (path_cost R q1 q2 (q :: rest)) (grad s q) d).
  pose proof (jump_le (grad s q) ltac:(unfold grad; lia)). lia.
Qed.

Lemma same_refl d : same d d = true.
Proof. now apply same_iff. Qed.
Lemma near_refl d : near d d = true.
Proof. apply near_iff. lia. Qed.

Lemma low_penalty s q L d :
  let gr := grad s q in
  (forall e, in_box (s_box q) e -> in_box R e) ->
  prior_least (s_box q) L q2 + jump_penalty q1 q2 gr <= 255 + q2 ->
  (exists e, in_box (s_box q) e /\ L e = prior_least (s_box q) L q2) -> 
  (forall e, in_box (s_box q) e -> low (s_box q) L gr d <= L e + penalty q1 q2 s q d e) /\
  (exists e, in_box (s_box q) e /\ low (s_box q) L gr d = L e + penalty q1 q2 s q d e).
Proof.
  intros gr HR HJ (e0 & I0 & E0). pose proof (jump_le gr ltac:(unfold gr, grad; lia)) as J.
  assert (LE : forall e, in_box (s_box q) e -> low (s_box q) L gr d <= L e + penalty q1 q2 s q d e).
  { intros e I. unfold penalty. destruct (same d e) eqn:Es.
    - apply same_iff in Es. subst e. pose proof (low_le_near (s_box q) L gr d d I (HR d I) (near_refl d)) as K.
      rewrite same_refl in K. lia.
    - destruct (near d e) eqn:En.
      + pose proof (low_le_near (s_box q) L gr d e I (HR e I) En) as K. rewrite Es in K. lia.
      + pose proof (low_le_jump (s_box q) L gr d). pose proof (least_le (s_box q) L e I). fold gr. lia. }
  split; auto.
  assert (FB : prior_least (s_box q) L q2 + jump_penalty q1 q2 gr <= low (s_box q) L gr d ->
     exists e, in_box (s_box q) e /\ low (s_box q) L gr d = L e + penalty q1 q2 s q d e).
  { intros K. exists e0. split; auto. specialize (LE e0 I0).
    assert (penalty q1 q2 s q d e0 <= jump_penalty q1 q2 gr).
    { unfold penalty. fold gr. destruct (same d e0); [lia|]. destruct (near d e0); lia. }
    lia. }
  assert (X : low (s_box q) L gr d = prior_least (s_box q) L q2 + jump_penalty q1 q2 gr \/
     exists e, near d e = true /\ low (s_box q) L gr d = prior_costs (s_box q) L q2 e + (if same d e then 0 else q1)).
  { unfold low. match goal with |- context[minl ?v ?l] => destruct (minl_spec v l) as (A & _) end.
    destruct A as [A|A]; auto. right. apply in_map_iff in A as (e & E & I). apply filter_In in I as [_ I].
    exists e. auto. }
  destruct X as [X|(e & Ne & X)]; [apply FB; lia|].
  unfold prior_costs in X. destruct (in_boxb (s_box q) e) eqn:Eb.
  - apply in_boxb_iff in Eb. exists e. split; auto. unfold penalty. rewrite Ne. destruct (same d e); auto.
  - apply FB. destruct (same d e); lia.
Qed.

Lemma choice_len past ds : choice past ds -> length past = length ds.
Proof. induction 1; cbn [length]; auto. Qed.

Theorem path_optimal past : Forall (site_ok R) past -> calm R q1 q2 past ->
  match past with
  | [] => True
  | s :: rest => exists e, is_min (energies q1 q2 rest) e /\
      forall d, in_box (s_box s) d -> is_min (energies_at q1 q2 past d) (path_cost R q1 q2 past d + e)
  end.
Proof.
  induction past as [|s rest IH]; intros F C; auto. inversion F as [|? ? Hs Fr]; subst.
  destruct rest as [|q rest].
  - exists 0. split.
    + split; [exists []; split; [constructor|reflexivity]|].
      intros u (ds & Hd & ->). inversion Hd; subst. cbn [energy]. lia.
    + intros d I. split.
      * exists []. split; [constructor; auto; constructor|]. cbn [energy path_cost]. lia.
      * intros u (ds & Hd & ->). inversion Hd; subst. inversion H4; subst. cbn [energy path_cost]. lia.
  - assert (Cr : calm R q1 q2 (q :: rest)) by (destruct C; auto).
    destruct (IH Fr Cr) as (e2 & M2 & Hq). clear IH.
    set (L := path_cost R q1 q2 (q :: rest)) in *.
    assert (HJ : prior_least (s_box q) L q2 + jump_penalty q1 q2 (grad s q) <= 255 + q2) by (destruct C; auto).
    inversion Fr as [|? ? [Nq Hq'] _]; subst.
    assert (AT : exists e, in_box (s_box q) e /\ L e = prior_least (s_box q) L q2).
    { apply least_at; auto. intros e I. exact (path_cost_bound (q :: rest) Fr e I). }
    set (m := prior_least (s_box q) L q2) in *.
    exists (m + e2). split.
    + destruct AT as (e0 & I0 & E0). split.
      * destruct (proj1 (Hq e0 I0)) as (ds & Hd & E). exists (e0 :: ds). split; auto. lia.
      * intros u (ds & Hd & ->). inversion Hd as [|? e ? ds' I Hd']; subst.
        assert (K : energies_at q1 q2 (q :: rest) e (energy q1 q2 (q :: rest) (e :: ds'))) by (exists ds'; auto).
        pose proof (proj2 (Hq e I) _ K). pose proof (least_le (s_box q) L e I). fold m in H0. lia.
    + intros d I.
      destruct (low_penalty s q L d) as [LO AO]; auto.
      { intros e Ie. apply Hq'; auto. }
      assert (EV : path_cost R q1 q2 (s :: q :: rest) d + (m + e2) = s_cost s d + low (s_box q) L (grad s q) d + e2).
      { change (path_cost R q1 q2 (s :: q :: rest) d) with (step_cost R q1 q2 (s_box q) L (s_cost s) (grad s q) d).
        unfold step_cost. fold (low (s_box q) L (grad s q) d). fold m. lia. }
      rewrite EV. split.
      * destruct AO as (e & Ie & E). destruct (proj1 (Hq e Ie)) as (ds & Hd & E').
        exists (e :: ds). split; [constructor; auto|].
        change (energy q1 q2 (s :: q :: rest) (d :: e :: ds)) with
          (s_cost s d + penalty q1 q2 s q d e + energy q1 q2 (q :: rest) (e :: ds)). lia.
      * intros u (ds & Hd & ->). inversion Hd as [|? ? ? ? _ Hd']; subst.
        inversion Hd' as [|? e ? ds' Ie Hd'']; subst.
        assert (K : energies_at q1 q2 (q :: rest) e (energy q1 q2 (q :: rest) (e :: ds'))) by (exists ds'; auto).
        pose proof (proj2 (Hq e Ie) _ K). specialize (LO e Ie).
        change (energy q1 q2 (s :: q :: rest) (d :: e :: ds')) with
          (s_cost s d + penalty q1 q2 s q d e + energy q1 q2 (q :: rest) (e :: ds')). lia.
Qed.

Lemma growing_small past : Forall (site_ok R) past -> growing past ->
  match past with [] => True | s :: _ => exists d, in_box (s_box s) d /\ path_cost R q1 q2 past d <= 255 end.
Proof.
  intros F Gr. destruct past as [|s rest]; auto. inversion F as [|? ? [[d0 I0] Hs] Fr]; subst.
  destruct rest as [|q rest].
  - exists d0. split; auto. destruct (Hs d0 I0). cbn [path_cost]. lia.
  - destruct Gr as [G1 G2]. inversion Fr as [|? ? [Nq Hq'] _]; subst.
    destruct (least_at (s_box q) (path_cost R q1 q2 (q :: rest))) as (e & Ie & E); auto.
    { intros e I. exact (path_cost_bound (q :: rest) Fr e I). }
    exists e. split; auto.
    change (path_cost R q1 q2 (s :: q :: rest) e) with
      (step_cost R q1 q2 (s_box q) (path_cost R q1 q2 (q :: rest)) (s_cost s) (grad s q) e).
    unfold step_cost. fold (low (s_box q) (path_cost R q1 q2 (q :: rest)) (grad s q) e).
    pose proof (low_le_near (s_box q) (path_cost R q1 q2 (q :: rest)) (grad s q) e e Ie (proj1 (Hq' e Ie)) (near_refl e)) as K.
    rewrite same_refl in K. destruct (Hs e (G1 e Ie)) as [_ C]. lia.
Qed.
Lemma growing_calm past : Forall (site_ok R) past -> growing past -> calm R q1 q2 past.
Proof.
  induction past as [|s rest IH]; intros F Gr; [exact I|]. destruct rest as [|q rest]; [exact I|].
  inversion F as [|? ? _ Fr]; subst. destruct Gr as [G1 G2]. split; [|apply IH; auto].
  destruct (growing_small (q :: rest) Fr G2) as (d & Id & Hd).
  pose proof (least_le (s_box q) (path_cost R q1 q2 (q :: rest)) d Id).
  pose proof (jump_le (grad s q) ltac:(unfold grad; lia)). lia.
Qed.
End D.
