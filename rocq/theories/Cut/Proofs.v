From Coq Require Import List ZArith QArith Bool Lia Lqa Permutation.
From Verif Require Import Lib.Base Lib.Lists Cut.Model Cut.Spec.
Import ListNotations.
Open Scope Q_scope.

(** ** Comparisons *)

Lemma leqP a b : BoolSpec (a <= b) (b < a) (Qle_bool a b).
Proof.
  destruct (Qle_bool a b) eqn:E; constructor.
  - now apply Qle_bool_iff.
  - apply Qnot_le_lt. intros L. apply Qle_bool_iff in L. congruence.
Qed.
Lemma ltqP a b : BoolSpec (a < b) (b <= a) (ltq a b).
Proof. unfold ltq. destruct (leqP b a); constructor; auto. Qed.
Lemma eqqP a b : reflect (a == b) (Qeq_bool a b).
Proof.
  destruct (Qeq_bool a b) eqn:E; constructor.
  - now apply Qeq_bool_iff.
  - intros L. apply Qeq_bool_iff in L. congruence.
Qed.

(** ** Cutting an edge *)

Lemma clamp_id t : 0 <= t <= 1 -> minq (maxq t 0) 1 == t.
Proof. intros B. unfold minq, maxq. destruct (ltqP t 0); [lra|]. destruct (ltqP 1 t); lra. Qed.

(** The directions in use. *)
Definition axis (nx ny : Q) : Prop := (nx == 0 /\ (ny == 1 \/ ny == -1)) \/ (ny == 0 /\ (nx == 1 \/ nx == -1)).

Lemma cut_edge_ok nx ny H a b : axis nx ny ->
  (dot nx ny a < H /\ H < dot nx ny b) \/ (H < dot nx ny a /\ dot nx ny b < H) ->
  let c := cut_edge a b nx ny H in
  let t := (H - dot nx ny a) / (dot nx ny b - dot nx ny a) in
  same c (point_at a b t) /\ 0 < t /\ t < 1 /\ dot nx ny c == H.
Proof.
  intros AX D. destruct a as [x0 y0], b as [x1 y1]. unfold dot in *. cbn [fst snd] in *. unfold cut_edge, same, point_at. cbn [fst snd]. cbn zeta.
  set (d0 := nx * x0 + ny * y0) in *. set (d1 := nx * x1 + ny * y1) in *.
  assert (NZ : ~ d1 - d0 == 0) by lra. assert (NZ' : ~ d0 - d1 == 0) by lra.
  set (t := (H - d0) / (d1 - d0)). assert (ET : t * (d1 - d0) == H - d0) by (unfold t; field; auto).
  assert (B : 0 < t /\ t < 1).
  { destruct D as [(A & B)|(A & B)]; split; nra. }
  set (u := (H - d1) / (d0 - d1)). assert (EU : u == 1 - t) by (unfold u, t; field; auto).
  clearbody t u.
  pose proof (clamp_id t ltac:(lra)) as CT. pose proof (clamp_id u ltac:(lra)) as CU.
  set (t' := minq (maxq t 0) 1) in *. set (u' := minq (maxq u 0) 1) in *. clearbody t' u'.
  assert (EX : (1 # 2) * ((1 - t') * x0 + t' * x1) + (1 # 2) * ((1 - u') * x1 + u' * x0) == x0 + t * (x1 - x0)) by (rewrite CT, CU, EU; ring).
  assert (EY : (1 # 2) * ((1 - t') * y0 + t' * y1) + (1 # 2) * ((1 - u') * y1 + u' * y0) == y0 + t * (y1 - y0)) by (rewrite CT, CU, EU; ring).
  destruct (eqqP nx 0) as [N0|N0]; [|destruct (eqqP ny 0) as [M0|M0]]; cbn [fst snd].
  - assert (NY : ny == 1 \/ ny == -1) by (destruct AX as [(_ & ?)|(? & [?|?])]; auto; lra).
    assert (HY : H / ny == y0 + t * (y1 - y0)).
    { assert (E : ny * (y0 + t * (y1 - y0)) == H). { unfold d0, d1 in ET. rewrite N0 in ET. lra. }
      rewrite <- E. field. destruct NY; lra. }
    split; [split; auto|]. split; [tauto|]. split; [tauto|]. rewrite N0. field. destruct NY; lra.
  - assert (NX : nx == 1 \/ nx == -1) by (destruct AX as [(? & [?|?])|(_ & ?)]; auto; lra).
    assert (HX : H / nx == x0 + t * (x1 - x0)).
    { assert (E : nx * (x0 + t * (x1 - x0)) == H). { unfold d0, d1 in ET. rewrite M0 in ET. lra. }
      rewrite <- E. field. destruct NX; lra. }
    split; [split; auto|]. split; [tauto|]. split; [tauto|]. rewrite M0. field. destruct NX; lra.
  - destruct AX as [(? & _)|(? & _)]; contradiction.
Qed.

(** ** What the vertices give *)

Section Half.
Variables nx ny H : Q.
Hypothesis AX : axis nx ny.
Notation d := (dot nx ny).

Definition label := option bool.
Definition emit (prev curr next : pt) : list (pt * label) :=
  if ltq (d curr) H then
    if Qle_bool (d next) H then [(curr, None)] else [(curr, None); (cut_edge curr next nx ny H, Some true)]
  else if ltq H (d curr) then
    if Qle_bool H (d next) then [] else [(cut_edge curr next nx ny H, Some false)]
  else
    if Qle_bool H (d prev) && Qle_bool H (d next) then []
    else [(curr, if Qle_bool H (d prev) || Qle_bool H (d next) then Some (ltq (d prev) H) else None)].

Fixpoint emits (first prev : pt) (l : list pt) : list (pt * label) :=
  match l with
  | [] => []
  | curr :: l' => emit prev curr (match l' with [] => first | n :: _ => n end) ++ emits first curr l'
  end.

Fixpoint marks_of (i : nat) (L : list (pt * label)) : list mark :=
  match L with
  | [] => []
  | (p, None) :: L => marks_of (S i) L
  | (p, Some o) :: L => Mark (along nx ny p) i o (-1) :: marks_of (S i) L
  end.

Lemma marks_app i L M : marks_of i (L ++ M) = marks_of i L ++ marks_of (i + length L) M.
Proof.
  revert i. induction L as [|[p [o|]] L IH]; intros i; cbn [app marks_of length].
  - now rewrite Nat.add_0_r.
  - rewrite IH. cbn [app]. now rewrite Nat.add_succ_r.
  - rewrite IH. now rewrite Nat.add_succ_r.
Qed.

Lemma half_step_emit prev curr next cut marks :
  half_step nx ny H prev curr next (cut, marks) = (cut ++ map fst (emit prev curr next), marks ++ marks_of (length cut) (emit prev curr next)).
Proof.
  unfold half_step, emit. destruct (ltq (d curr) H); [destruct (Qle_bool (d next) H)|destruct (ltq H (d curr)); [destruct (Qle_bool H (d next))|]];
    cbn [map fst marks_of]; rewrite ?app_nil_r; auto.
  - rewrite <- app_assoc, app_length. cbn [app length]. rewrite Nat.add_1_r. reflexivity.
  - destruct (Qle_bool H (d prev)), (Qle_bool H (d next)); cbn [andb orb map fst marks_of app]; rewrite ?app_nil_r; auto.
Qed.

Lemma half_loop_emits first l : forall prev cut marks,
  half_loop nx ny H first prev l (cut, marks) = (cut ++ map fst (emits first prev l), marks ++ marks_of (length cut) (emits first prev l)).
Proof.
  induction l as [|curr l IH]; intros prev cut marks; cbn [half_loop emits].
  - cbn [map marks_of]. now rewrite !app_nil_r.
  - rewrite half_step_emit, IH, map_app, !app_assoc, marks_app, app_length, map_length, app_assoc. reflexivity.
Qed.

(** *** Labels: after an inward point comes the inside, after an outward one the next inward one *)

(** The edge from [a] to [b] ends inside, or arrives at the line from inside. *)
Definition pend (a b : pt) : bool := (ltq (d a) H && Qle_bool (d b) H) || ltq (d b) H.

Fixpoint run (s : bool) (ls : list label) : option bool :=
  match ls with
  | [] => Some s
  | None :: ls => if s then run true ls else None
  | Some true :: ls => if s then run false ls else None
  | Some false :: ls => if s then None else run true ls
  end.
Lemma run_app ls : forall s ls', run s (ls ++ ls') = match run s ls with Some s' => run s' ls' | None => None end.
Proof. induction ls as [|[[|]|] ls IH]; intros [|] ls'; cbn [app run]; auto. Qed.

Ltac cmp := repeat match goal with
  | |- context [ltq ?a ?b] => destruct (ltqP a b)
  | |- context [Qle_bool ?a ?b] => destruct (leqP a b)
  end.

Lemma emit_run p v n : run (pend p v) (map snd (emit p v n)) = Some (pend v n).
Proof.
  unfold emit, pend.
  destruct (ltqP (d v) H) as [A|A]; [|destruct (ltqP H (d v)) as [B|B]]; destruct (ltqP (d n) H) as [C|C], (leqP (d n) H) as [C'|C'], (leqP H (d n)) as [E|E];
    destruct (ltqP (d p) H) as [F|F], (leqP H (d p)) as [F'|F'], (leqP (d v) H) as [G|G]; cbn [andb orb map snd run]; try reflexivity; lra.
Qed.

Lemma emits_run first l : forall p, l <> [] -> run (pend p (hd first l)) (map snd (emits first p l)) = Some (pend (last l first) first).
Proof.
  induction l as [|v l IH]; intros p NE; [contradiction|]. cbn [emits hd]. rewrite map_app, run_app, emit_run.
  destruct l as [|n l]; [reflexivity|]. specialize (IH v ltac:(discriminate)). cbn [hd] in IH. rewrite IH. reflexivity.
Qed.

(** *** Sums over edges *)

Variable g : pt -> pt -> Z.
Hypothesis G0 : forall a b, H <= d a -> H <= d b -> g a b = 0%Z.
Hypothesis G1 : forall a b c t, d a < H -> H < d b -> same c (point_at a b t) -> 0 < t -> t < 1 -> d c == H -> g a b = g a c.
Hypothesis G2 : forall a b c t, H < d a -> d b < H -> same c (point_at a b t) -> 0 < t -> t < 1 -> d c == H -> g a b = g c b.

(** Over the points that are not outward, each with the next one; [t] comes after
    the last. *)
Fixpoint sumn (L : list (pt * label)) (t : pt) : Z :=
  match L with
  | [] => 0
  | (p, o) :: L' =>
      ((match o with Some true => 0 | _ => g p (match L' with [] => t | (q, _) :: _ => q end) end) + sumn L' t)%Z
  end.

Lemma sumn_app L M t : sumn (L ++ M) t = (sumn L (match M with [] => t | (q, _) :: _ => q end) + sumn M t)%Z.
Proof.
  induction L as [|[p o] L IH]; [reflexivity|]. cbn [app sumn]. rewrite IH.
  destruct L as [|[q o'] L]; cbn [app]; [destruct M as [|[q o'] M]|]; lia.
Qed.

Lemma emit_first p v n : pend p v = true -> exists o L, emit p v n = (v, o) :: L.
Proof.
  unfold pend, emit. destruct (ltqP (d v) H) as [A|A]; [destruct (leqP (d n) H); eauto|]. destruct (ltqP (d p) H) as [F|F]; cbn [andb orb]; [|discriminate].
  destruct (leqP (d v) H); cbn [orb]; [|discriminate]. intros _. destruct (ltqP H (d v)); [lra|].
  destruct (leqP H (d p)); [lra|]. cbn [andb]. eauto.
Qed.

Lemma emit_sum p v n t : (pend v n = true -> t = n) -> sumn (emit p v n) t = g v n.
Proof.
  unfold pend, emit. intros T.
  destruct (ltqP (d v) H) as [A|A]; [|destruct (ltqP H (d v)) as [B|B]].
  - destruct (leqP (d n) H) as [C|C]; cbn [sumn].
    + rewrite T by reflexivity. lia.
    + destruct (cut_edge_ok nx ny H v n AX ltac:(lra)) as (S & T0 & T1 & ON). rewrite (G1 v n _ _ A ltac:(lra) S T0 T1 ON). lia.
  - destruct (leqP H (d n)) as [C|C]; cbn [sumn].
    + symmetry. apply G0; lra.
    + destruct (cut_edge_ok nx ny H v n AX ltac:(lra)) as (S & T0 & T1 & ON). rewrite (G2 v n _ _ B ltac:(lra) S T0 T1 ON).
      rewrite T; [lia|]. destruct (ltqP (d n) H); [|lra]. now rewrite orb_true_r.
  - destruct (leqP H (d p)) as [P|P], (leqP H (d n)) as [C|C]; cbn [andb orb sumn].
    + symmetry. apply G0; lra.
    + destruct (ltqP (d p) H); [lra|]. rewrite T; [lia|]. destruct (ltqP (d n) H); [|lra]. now rewrite orb_true_r.
    + destruct (ltqP (d p) H); [|lra]. symmetry. rewrite G0 by lra. lia.
    + rewrite T; [lia|]. destruct (ltqP (d n) H); [|lra]. now rewrite orb_true_r.
Qed.

Fixpoint path_sum (first : pt) (l : list pt) : Z :=
  match l with [] => 0 | v :: l' => (g v (match l' with [] => first | n :: _ => n end) + path_sum first l')%Z end.

Lemma emits_sum first l : forall p t, l <> [] -> (pend (last l first) first = true -> t = first) ->
  sumn (emits first p l) t = path_sum first l.
Proof.
  induction l as [|v l IH]; intros p t NE T; [contradiction|]. cbn [emits path_sum].
  destruct l as [|n l].
  - cbn [emits]. rewrite app_nil_r, emit_sum by exact T. cbn [path_sum]. lia.
  - rewrite sumn_app. rewrite (IH v t) by (auto; discriminate). rewrite emit_sum; auto.
    intros PE. cbn [emits]. destruct (emit_first v n (match l with [] => first | n0 :: _ => n0 end) PE) as (o & L & ->). reflexivity.
Qed.
End Half.
