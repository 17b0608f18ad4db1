From Coq Require Import ZArith List Lia Bool QArith Qcanon Field.
From Verif Require Import Lib.Base Lib.Img Lib.QSum Sky.Model Sky.Spec Sky.Algebra.
Local Open Scope Z_scope.

(* ---------- vectors ---------- *)
Lemma vget_ok {A} n (v : vec A) i : isvec n v -> 0 <= i < n -> vget v i = Ok (vat v i).
Proof. intros (C & R) I. unfold vget. apply get_in. unfold inside. rewrite C, R. lia. Qed.
Lemma vset_ok {A} n (v : vec A) i a : isvec n v -> 0 <= i < n ->
  exists v', vset v i a = Ok v' /\ isvec n v' /\ vat v' i = a /\ forall k, k <> i -> vat v' k = vat v k.
Proof.
  intros (C & R) I. unfold vset. destruct (put_in v i 0 a) as (v' & E & C' & R' & P & O).
  - unfold inside. rewrite C, R. lia.
  - exists v'. split; auto. split; [split; congruence|]. split; auto. intros k N. apply O. auto.
Qed.
Lemma vnew_vec {A} n (a : A) : isvec n (vnew n a).
Proof. split; reflexivity. Qed.

(* ---------- the matrix as the algorithm sees it ---------- *)
Section View.
Variable (sh : shape) (out : option (vec Z)) (n : Z) (skyf : Z -> Z).

(* the index used in the underlying matrix *)
Definition idx (i : Z) : Z := match sh with Plain => i | Reorganized lk => vat lk i end.
Definition addr (i j : Z) : Z * Z := at_const (idx i) (idx j).
Definition cell (a : mat) (i j : Z) : Qc := pix (cells a) (snd (addr i j)) (fst (addr i j)).

Hypothesis Sky : forall i, 0 <= i < n -> 0 <= skyf i <= i.
Hypothesis Idx : permutes n idx.
Hypothesis Lk : match sh with Plain => True | Reorganized lk => isvec n lk end.
Hypothesis Live : out = None -> sh = Plain.

Definition good (a : mat) : Prop :=
  icols (cells a) = n /\ irows (cells a) = n /\ isvec n (sky a) /\
  match out with None => forall i, 0 <= i < n -> vat (sky a) i = skyf i
  | Some s => isvec n s /\ forall i, 0 <= i < n -> vat s i = skyf i end.

Lemma skyline_ok a i : good a -> 0 <= i < n -> skyline out a i = Ok (skyf i).
Proof.
  intros (_ & _ & V & O) I. unfold skyline. destruct out.
  - destruct O as (Vs & Es). rewrite (vget_ok n) by auto. now rewrite Es.
  - rewrite (vget_ok n) by auto. now rewrite O.
Qed.

Lemma addr_in i j : 0 <= i < n -> 0 <= j < n -> 0 <= fst (addr i j) < n /\ 0 <= snd (addr i j) < n.
Proof.
  intros I J. pose proof (proj1 Idx i I). pose proof (proj1 Idx j J). unfold addr, at_const.
  destruct (idx j >? idx i); cbn [fst snd]; lia.
Qed.
Lemma addr_inj i j i' j' : 0 <= j <= i -> i < n -> 0 <= j' <= i' -> i' < n -> addr i j = addr i' j' -> i = i' /\ j = j'.
Proof.
  intros I N I' N' E.
  assert (K : (idx i = idx i' /\ idx j = idx j') \/ (idx i = idx j' /\ idx j = idx i')).
  { unfold addr, at_const in E. destruct (idx j >? idx i), (idx j' >? idx i'); inversion E; auto. }
  destruct Idx as (_ & In). destruct K as [(A & B)|(A & B)]; apply In in A; apply In in B; lia.
Qed.

Lemma access_ok a r c : good a -> 0 <= r < n -> 0 <= c < n ->
  exists a', access a r c = Ok (a', at_const r c) /\ cells a' = cells a /\ isvec n (sky a') /\
    (vat (sky a) (fst (at_const r c)) <= snd (at_const r c) -> a' = a).
Proof.
  intros (C & R & V & O) Hr Hc. unfold access, at_const.
  destruct (c >? r) eqn:G; cbn [fst snd].
  - rewrite (vget_ok n) by auto. cbn [bind]. destruct (Z.ltb_spec r (vat (sky a) c)).
    + destruct (vset_ok n (sky a) c r V Hc) as (v & E & V' & _). rewrite E. cbn [bind].
      eexists. split; [reflexivity|]. cbn [cells sky]. repeat split; auto. all: try apply V'. intros; lia.
    + exists a. split; [reflexivity|]. repeat split; auto; apply V.
  - rewrite (vget_ok n) by auto. cbn [bind]. destruct (Z.ltb_spec c (vat (sky a) r)).
    + destruct (vset_ok n (sky a) r c V Hr) as (v & E & V' & _). rewrite E. cbn [bind].
      eexists. split; [reflexivity|]. cbn [cells sky]. repeat split; auto. all: try apply V'. intros; lia.
    + exists a. split; [reflexivity|]. repeat split; auto; apply V.
Qed.

Lemma vaccess_ok a i j : good a -> 0 <= j <= i -> i < n -> skyf i <= j ->
  exists a', vaccess sh a i j = Ok (a', addr i j) /\ good a' /\ cells a' = cells a.
Proof.
  intros G J I K. pose proof (proj1 Idx i ltac:(lia)) as Pi. pose proof (proj1 Idx j ltac:(lia)) as Pj.
  destruct (access_ok a (idx i) (idx j) G Pi Pj) as (a' & E & C & V & U).
  exists a'. split.
  - unfold vaccess, addr, idx in *. destruct sh as [|lk]; auto. rewrite !(vget_ok n) by (auto; lia). exact E.
  - split; auto. destruct G as (GC & GR & GV & GO). rewrite <- C in GC, GR. split; [auto|split; [auto|split; [auto|]]].
    destruct out as [s|]; auto. assert (S0 : sh = Plain) by auto. unfold idx in *. rewrite S0 in *.
    assert (a' = a); [|subst; auto]. apply U. unfold at_const. rewrite Z.gtb_ltb.
    destruct (Z.ltb_spec i j); [lia|]. cbn [fst snd]. rewrite GO by lia. lia.
Qed.

Lemma deref_ok a i j : good a -> 0 <= j <= i -> i < n -> deref a (addr i j) = Ok (cell a i j).
Proof.
  intros (C & R & _) J I. unfold deref. destruct (addr_in i j ltac:(lia) ltac:(lia)).
  rewrite get_in; [reflexivity|]. unfold inside. lia.
Qed.

Lemma read_ok a i j : good a -> 0 <= j <= i -> i < n -> skyf i <= j ->
  exists a', read sh a i j = Ok (a', cell a i j) /\ good a' /\ cells a' = cells a.
Proof.
  intros G J I K. destruct (vaccess_ok a i j G J I K) as (a' & E & G' & C). exists a'.
  unfold read. rewrite E. cbn [bind]. rewrite (deref_ok a') by auto. cbn [bind]. split; [|auto].
  unfold cell. now rewrite C.
Qed.
Lemma write_ok a i j x : good a -> 0 <= j <= i -> i < n -> skyf i <= j ->
  exists a', write sh a i j x = Ok a' /\ good a' /\ cell a' i j = x /\
    forall k l, 0 <= l <= k -> k < n -> k <> i \/ l <> j -> cell a' k l = cell a k l.
Proof.
  intros G J I K. destruct (vaccess_ok a i j G J I K) as (a' & E & G' & C).
  unfold write. rewrite E. cbn [bind]. unfold store.
  destruct (addr_in i j ltac:(lia) ltac:(lia)).
  destruct (put_in (cells a') (snd (addr i j)) (fst (addr i j)) x) as (m & Em & C' & R' & P & O).
  { destruct G' as (? & ? & _). unfold inside. lia. }
  rewrite Em. cbn [bind]. eexists. split; [reflexivity|].
  split; [|split].
  - destruct G' as (GC & GR & GV & GO). unfold good. cbn [cells sky]. repeat split; try congruence; try apply GV.
  - exact P.
  - intros k l L N D. unfold cell. cbn [cells]. rewrite O, C; auto.
    destruct (Z.eq_dec (snd (addr k l)) (snd (addr i j))) as [e1|e1]; auto.
    destruct (Z.eq_dec (fst (addr k l)) (fst (addr i j))) as [e2|e2]; auto.
    destruct (addr_inj k l i j); auto; try lia.
    destruct (addr k l), (addr i j). cbn [fst snd] in *. congruence.
Qed.
Lemma read_const_ok a i j : good a -> 0 <= j <= i -> i < n -> read_const sh a i j = Ok (cell a i j).
Proof.
  intros G J I. unfold read_const. assert (E : vconst sh a i j = Ok (addr i j)).
  { unfold vconst, addr, idx in *. destruct sh as [|lk]; auto. rewrite !(vget_ok n) by (auto; lia). reflexivity. }
  rewrite E. cbn [bind]. apply deref_ok; auto.
Qed.
Lemma cell_same a a' i j : cells a = cells a' -> cell a i j = cell a' i j.
Proof. intros E. unfold cell. now rewrite E. Qed.

(* ---------- one column ---------- *)
Definition vspec (a : mat) (j m : Z) : Qc := if skyf j <=? m then (cell a j m * cell a m m)%Qc else 0%Qc.

Lemma ldl_v_ok a j : good a -> 0 <= j < n ->
  exists a' v, ldl_v sh out a j = Ok (a', v) /\ good a' /\ cells a' = cells a /\ isvec (j + 1) v /\
    (forall m, 0 <= m < j -> vat v m = vspec a j m) /\
    vat v j = (cell a j j - qsum (skyf j) j (fun m => cell a j m * (cell a j m * cell a m m)))%Qc.
Proof.
  intros G J. pose proof (Sky j J) as Sj. unfold ldl_v.
  destruct (read_ok a j j G ltac:(lia) ltac:(lia) ltac:(lia)) as (a1 & E1 & G1 & C1). rewrite E1. cbn [bind].
  destruct (vset_ok (j + 1) (vnew (j + 1) 0%Qc) j (cell a j j) (vnew_vec _ _) ltac:(lia)) as (v1 & Ev & V1 & X1 & O1).
  rewrite Ev. cbn [bind]. rewrite (skyline_ok a1 j G1 J). cbn [bind].
  destruct (for_up_inv (fun i (st : mat * vec Qc) => let '(b, v) := st in good b /\ cells b = cells a /\ isvec (j + 1) v /\
      (forall m, 0 <= m < j -> vat v m = if m <? i then vspec a j m else 0%Qc) /\
      vat v j = (cell a j j - qsum (skyf j) i (fun m => cell a j m * (cell a j m * cell a m m)))%Qc)
    (fun i st => let '(b, v) := st in
      '(b, x) <- read sh b j i ;; '(b, y) <- read sh b i i ;;
      v <- vset v i (x * y)%Qc ;;
      '(b, x) <- read sh b j i ;; vi <- vget v i ;; vj <- vget v j ;;
      v <- vset v j (vj - x * vi)%Qc ;; Ok (b, v)) (skyf j) j (a1, v1)) as ((b & v) & E & Gb & Cb & Vv & Hm & Hj).
  - lia.
  - split; [auto|split; [congruence|split; [auto|split]]].
    + intros m Hm. rewrite O1 by lia. unfold vspec. destruct (Z.ltb_spec m (skyf j)); [|reflexivity].
      rewrite (proj2 (Z.leb_gt _ _)) by lia. reflexivity.
    + rewrite X1, qsum_nil by lia. ring.
  - intros i (b & v) Hi (Gb & Cb & Vv & Hm & Hj). pose proof (Sky i ltac:(lia)) as Si.
    destruct (read_ok b j i Gb ltac:(lia) ltac:(lia) ltac:(lia)) as (b1 & F1 & Gb1 & Cb1). rewrite F1. cbn [bind].
    destruct (read_ok b1 i i Gb1 ltac:(lia) ltac:(lia) ltac:(lia)) as (b2 & F2 & Gb2 & Cb2). rewrite F2. cbn [bind].
    rewrite (cell_same b1 b) by auto. rewrite (cell_same b a j i), (cell_same b a i i) by auto.
    destruct (vset_ok (j + 1) v i (cell a j i * cell a i i)%Qc Vv ltac:(lia)) as (v2 & F3 & V2 & X2 & O2). rewrite F3. cbn [bind].
    destruct (read_ok b2 j i Gb2 ltac:(lia) ltac:(lia) ltac:(lia)) as (b3 & F4 & Gb3 & Cb3). rewrite F4. cbn [bind].
    rewrite (cell_same b2 a) by congruence.
    rewrite !(vget_ok (j + 1)) by (auto; lia). cbn [bind].
    destruct (vset_ok (j + 1) v2 j (vat v2 j - cell a j i * vat v2 i)%Qc V2 ltac:(lia)) as (v3 & F5 & V3 & X3 & O3).
    rewrite F5. cbn [bind]. eexists. split; [reflexivity|].
    split; [auto|split; [congruence|split; [auto|split]]].
    + intros m Hm'. rewrite O3 by lia. destruct (Z.eq_dec m i) as [->|Nm].
      * rewrite X2. destruct (Z.ltb_spec i (i + 1)); [|lia]. unfold vspec. rewrite (proj2 (Z.leb_le _ _)) by lia. reflexivity.
      * rewrite O2, Hm by lia. destruct (Z.ltb_spec m i), (Z.ltb_spec m (i + 1)); try lia; reflexivity.
    + rewrite X3, X2, (O2 j), Hj, (qsum_snoc (skyf j) i) by lia. ring.
  - exists b, v. split; [exact E|]. split; [auto|split; [auto|split; [auto|split; auto]]].
    intros m Hm'. rewrite Hm by auto. destruct (Z.ltb_spec m j); [reflexivity|lia].
Qed.

Lemma ldl_entry_ok a v j i : good a -> isvec (j + 1) v -> 0 <= j < i -> i < n -> (skyf i <= j -> vat v j <> 0%Qc) ->
  exists a', ldl_entry sh out v j i a = Ok a' /\ good a' /\
    cell a' i j = (if skyf i <=? j then (cell a i j - qsum (skyf i) j (fun m => cell a i m * vat v m)) / vat v j else cell a i j)%Qc /\
    forall k l, 0 <= l <= k -> k < n -> k <> i \/ l <> j -> cell a' k l = cell a k l.
Proof.
  intros G V J I Nz. pose proof (Sky i ltac:(lia)) as Si. unfold ldl_entry.
  rewrite (skyline_ok a i G) by lia. cbn [bind].
  assert (L : exists b, for_up (skyf i) j (fun jj (st : mat * Qc) => let '(b, r) := st in
      '(b, x) <- read sh b i jj ;; y <- vget v jj ;; Ok (b, r + x * y)%Qc) (a, 0%Qc)
      = Ok (b, qsum (skyf i) j (fun m => cell a i m * vat v m)%Qc) /\ good b /\ cells b = cells a).
  { destruct (Z.le_gt_cases (skyf i) j) as [Le|Gt].
    - destruct (for_up_inv (fun m (st : mat * Qc) => let '(b, r) := st in good b /\ cells b = cells a /\
          r = qsum (skyf i) m (fun m => cell a i m * vat v m)%Qc)
        (fun jj (st : mat * Qc) => let '(b, r) := st in
          '(b, x) <- read sh b i jj ;; y <- vget v jj ;; Ok (b, r + x * y)%Qc) (skyf i) j (a, 0%Qc)) as ((b & r) & E & Gb & Cb & Er).
      + lia.
      + rewrite qsum_nil by lia. auto.
      + intros m (b & r) Hm (Gb & Cb & Er).
        destruct (read_ok b i m Gb ltac:(lia) ltac:(lia) ltac:(lia)) as (b1 & F1 & Gb1 & Cb1). rewrite F1. cbn [bind].
        rewrite (vget_ok (j + 1)) by (auto; lia). cbn [bind]. eexists. split; [reflexivity|]. split; [auto|split; [congruence|]].
        rewrite (qsum_snoc (skyf i) m) by lia. rewrite Er, (cell_same b a) by auto. reflexivity.
      + exists b. subst r. auto.
    - exists a. unfold for_up. replace (Z.to_nat (j - skyf i)) with O by lia. rewrite qsum_nil by lia. auto. }
  destruct L as (b & E & Gb & Cb). rewrite E. cbn [bind]. rewrite (skyline_ok b i Gb) by lia. cbn [bind].
  rewrite Z.geb_leb. destruct (Z.leb_spec (skyf i) j) as [Le|Gt].
  - destruct (read_ok b i j Gb ltac:(lia) ltac:(lia) ltac:(lia)) as (b1 & F1 & Gb1 & Cb1). rewrite F1. cbn [bind].
    rewrite (vget_ok (j + 1)) by (auto; lia). cbn [bind]. unfold qdiv. destruct (Qc_eq_dec (vat v j) 0) as [Z0|_]; [now destruct (Nz Le)|].
    cbn [bind]. rewrite (cell_same b a) by auto.
    destruct (write_ok b1 i j ((cell a i j - qsum (skyf i) j (fun m => cell a i m * vat v m)) / vat v j)%Qc Gb1 ltac:(lia) ltac:(lia) ltac:(lia))
      as (b2 & F2 & Gb2 & X2 & O2).
    exists b2. split; [auto|split; [auto|split; [auto|]]]. intros k l Hl Hk D. rewrite O2 by auto. apply cell_same. congruence.
  - exists b. split; [auto|split; [auto|split]]; intros; apply cell_same; auto.
Qed.

(* ---------- the decomposition ---------- *)
Section Decomp.
Variable (A0 : Z -> Z -> Qc).
Hypothesis Sym : symmetric n A0.
Hypothesis Zeros : forall i k, 0 <= k < i -> i < n -> k < skyf i -> A0 i k = 0%Qc.

Definition inv (j : Z) (a : mat) : Prop := good a /\
  (forall i k, 0 <= k <= i -> i < n -> j <= k -> cell a i k = A0 i k) /\
  (forall i k, 0 <= k < i -> i < n -> k < skyf i -> cell a i k = 0%Qc) /\
  (forall i k, 0 <= k <= i -> i < n -> k < j -> factor_eq A0 (cell a) i k) /\
  (forall k, 0 <= k < j -> cell a k k <> 0%Qc).

Lemma factor_eq_ext A c c' i k : (forall i' m, 0 <= m <= i' -> i' = i \/ i' = k \/ i' = m -> m <= k -> c i' m = c' i' m) -> 0 <= k <= i ->
  factor_eq A c i k -> factor_eq A c' i k.
Proof.
  intros E K F. unfold factor_eq in *. rewrite F. f_equal.
  - apply qsum_ext. intros m Hm. rewrite !E by lia. reflexivity.
  - rewrite !E by lia. reflexivity.
Qed.

Lemma column_ok a j : 0 <= j < n -> inv j a ->
  (A0 j j - qsum 0 j (fun m => cell a j m * cell a j m * cell a m m))%Qc <> 0%Qc ->
  exists a', ('(a, v) <- ldl_v sh out a j ;; d <- vget v j ;; a <- write sh a j j d ;;
    for_up (j + 1) (dim a) (ldl_entry sh out v j) a) = Ok a' /\ inv (j + 1) a'
    /\ cell a' j j = (A0 j j - qsum 0 j (fun m => cell a j m * cell a j m * cell a m m))%Qc
    /\ (forall k, 0 <= k < j -> cell a' k k = cell a k k).
Proof.
  intros J (G & Old & Ze & Fa & Nz) Pv. pose proof (Sky j J) as Sj.
  destruct (ldl_v_ok a j G J) as (a1 & v & E1 & G1 & C1 & V & Hm & Hj). rewrite E1. cbn [bind].
  rewrite (vget_ok (j + 1)) by (auto; lia). cbn [bind].
  assert (Ej : vat v j = (A0 j j - qsum 0 j (fun m => cell a j m * cell a j m * cell a m m))%Qc).
  { rewrite Hj, (Old j j) by lia. rewrite (qsum_skip 0 (skyf j) j (fun m => cell a j m * cell a j m * cell a m m)%Qc).
    - f_equal. apply qsum_ext. intros. ring.
    - lia.
    - intros m Hm' _. rewrite (Ze j m) by lia. ring.
    - lia. }
  assert (Em : forall m, 0 <= m < j -> vat v m = (cell a j m * cell a m m)%Qc).
  { intros m M. rewrite Hm by auto. unfold vspec. destruct (Z.leb_spec (skyf j) m); [reflexivity|]. rewrite (Ze j m) by lia. ring. }
  destruct (write_ok a1 j j (vat v j) G1 ltac:(lia) ltac:(lia) ltac:(lia)) as (a2 & E2 & G2 & X2 & O2). rewrite E2. cbn [bind].
  assert (D2 : dim a2 = n) by apply G2. rewrite D2.
  destruct (for_up_inv (fun i b => good b /\
      (forall k l, 0 <= l <= k -> k < n -> (l <> j \/ k < j \/ i <= k) -> (k <> j \/ l <> j) -> cell b k l = cell a k l) /\
      cell b j j = vat v j /\
      (forall k, j < k < i -> cell b k j = (if skyf k <=? j then (cell a k j - qsum (skyf k) j (fun m => cell a k m * vat v m)) / vat v j else cell a k j)%Qc))
    (ldl_entry sh out v j) (j + 1) n a2) as (a3 & E3 & G3 & U3 & X3 & N3).
  - lia.
  - split; [auto|split; [|split]].
    + intros k l Hl Hk _ D. rewrite O2 by (auto; lia). apply cell_same; auto.
    + auto.
    + intros; lia.
  - intros i b Hi (Gb & Ub & Xb & Nb).
    destruct (ldl_entry_ok b v j i Gb V ltac:(lia) ltac:(lia)) as (b' & F & Gb' & Xb' & Ob').
    { intros _. now rewrite Ej. }
    exists b'. split; [auto|]. split; [auto|split; [|split]].
    + intros k l Hl Hk D D'. rewrite Ob' by lia. apply Ub; auto; lia.
    + rewrite Ob' by lia. auto.
    + intros k Hk. destruct (Z.eq_dec k i) as [->|Ne].
      * rewrite Xb'. rewrite (Ub i j) by lia. destruct (skyf i <=? j); auto. f_equal. f_equal.
        apply qsum_ext. intros m Hm'. pose proof (Sky i ltac:(lia)). rewrite Ub by lia. reflexivity.
      * rewrite Ob' by lia. apply Nb. lia.
  - exists a3. split; [exact E3|].
    assert (Nj : forall k, j < k < n -> (qsum 0 j (fun m => cell a k m * cell a m m * cell a j m) + cell a3 k j * cell a3 j j)%Qc = A0 k j).
    { intros k Hk. rewrite (N3 k Hk), X3. pose proof (Sky k ltac:(lia)) as Sk.
      assert (Sm : forall s, skyf k <= j -> s = skyf k ->
        qsum s j (fun m => cell a k m * vat v m)%Qc = qsum 0 j (fun m => cell a k m * cell a m m * cell a j m)%Qc).
      { intros s L ->. rewrite <- (qsum_skip 0 (skyf k) j).
        - apply qsum_ext. intros m Hm'. rewrite Em by lia. ring.
        - lia.
        - intros m Hm' _. rewrite (Ze k m) by lia. ring.
        - lia. }
      destruct (Z.leb_spec (skyf k) j) as [L|L].
      - rewrite (Sm (skyf k)) by auto. rewrite (Old k j) by lia. field. rewrite Ej. exact Pv.
      - rewrite qsum_zero.
        + rewrite (Old k j), (Zeros k j) by lia. ring.
        + intros m Hm'. rewrite (Ze k m) by lia. ring. }
    split; [|split].
    + split; [auto|]. split; [|split; [|split]].
      * intros i k Hk Hi Hj'. rewrite U3 by lia. apply Old; lia.
      * intros i k Hk Hi Hs. destruct (Z.eq_dec k j) as [->|Ne].
        -- rewrite N3 by lia. rewrite (proj2 (Z.leb_gt _ _)) by lia. apply Ze; auto.
        -- rewrite U3 by lia. apply Ze; auto.
      * intros i k Hk Hi Hj'. destruct (Z.eq_dec k j) as [->|Ne].
        -- unfold factor_eq. rewrite (qsum_ext 0 j _ (fun m => cell a i m * cell a m m * cell a j m)%Qc).
           2:{ intros m Hm'. rewrite !U3 by lia. reflexivity. }
           destruct (Z.eqb_spec i j) as [->|Nij].
           ++ rewrite X3, Ej. rewrite (qsum_ext 0 j (fun m => cell a j m * cell a j m * cell a m m)%Qc (fun m => cell a j m * cell a m m * cell a j m)%Qc) by (intros; ring). ring.
           ++ symmetry. apply Nj. lia.
        -- apply (factor_eq_ext A0 (cell a)); [|lia|apply Fa; lia].
           intros i' m Hm' W L. symmetry. apply U3; lia.
      * intros k Hk. destruct (Z.eq_dec k j) as [->|Ne]; [rewrite X3, Ej; auto|]. rewrite U3 by lia. apply Nz. lia.
    + rewrite X3. exact Ej.
    + intros k Hk. apply U3; lia.
Qed.

Lemma inv_start a : good a -> (forall i k, 0 <= k <= i -> i < n -> cell a i k = A0 i k) -> inv 0 a.
Proof.
  intros G E. split; auto. split; [auto|split; [|split]]; try (intros; lia).
  intros i k Hk Hi Hs. rewrite E by lia. apply Zeros; auto.
Qed.

Lemma ldl_ok (P : Qc -> Prop) a : 0 <= n -> good a -> (forall i k, 0 <= k <= i -> i < n -> cell a i k = A0 i k) ->
  (forall j c, 0 <= j < n -> (forall i k, 0 <= k <= i -> i <= j -> k < j -> factor_eq A0 c i k) ->
    (A0 j j - qsum 0 j (fun m => c j m * c j m * c m m))%Qc <> 0%Qc /\ P (A0 j j - qsum 0 j (fun m => c j m * c j m * c m m))%Qc) ->
  exists a', sparse_ldl_decomposition sh out a = Ok a' /\ inv n a' /\ forall k, 0 <= k < n -> P (cell a' k k).
Proof.
  intros N G E Pv. unfold sparse_ldl_decomposition. assert (D : dim a = n) by apply G. rewrite D.
  destruct (for_up_inv (fun j b => inv j b /\ forall k, 0 <= k < j -> P (cell b k k))
    (fun j a => '(a, v) <- ldl_v sh out a j ;; d <- vget v j ;; a <- write sh a j j d ;;
      for_up (j + 1) (dim a) (ldl_entry sh out v j) a) 0 n a) as (a' & Er & Ia & Pa).
  - lia.
  - split; [apply inv_start; auto|intros; lia].
  - intros j b Hj (Ib & Pb). pose proof Ib as (_ & _ & _ & Fb & _).
    destruct (Pv j (cell b)) as (Pn & Pp); [lia|intros; apply Fb; lia|].
    destruct (column_ok b j Hj Ib Pn) as (b' & Eb & Ib' & Xb & Ub).
    exists b'. split; [auto|split; [auto|]]. intros k Hk. destruct (Z.eq_dec k j) as [->|Ne]; [now rewrite Xb|].
    rewrite Ub by lia. apply Pb. lia.
  - exists a'. auto.
Qed.

(* ---------- the solver ---------- *)
Variable (s : vec Z).
Hypothesis Vs : isvec n s.
Hypothesis Es : forall i, 0 <= i < n -> vat s i = skyf i.

Lemma forward_ok a b : 0 <= n -> inv n a -> isvec n b ->
  exists x, forward sh s a b = Ok x /\ isvec n x /\ forall i, 0 <= i < n -> (vat x i + qsum 0 i (fun k => cell a i k * vat x k))%Qc = vat b i.
Proof.
  intros N (G & _ & Ze & _) Vb. unfold forward. assert (D : dim a = n) by apply G. rewrite D.
  destruct (for_up_inv (fun i x => isvec n x /\ forall k, 0 <= k < i -> (vat x k + qsum 0 k (fun m => cell a k m * vat x m))%Qc = vat b k)
    (fun i x => k <- vget s i ;;
      sum <- for_up k i (fun j sum => l <- read_const sh a i j ;; y <- vget x j ;; Ok (sum + l * y)%Qc) 0%Qc ;;
      bi <- vget b i ;; vset x i (bi - sum)%Qc) 0 n (vnew n 0%Qc)) as (x & E & Vx & Hx).
  - lia.
  - split; [apply vnew_vec|intros; lia].
  - intros i x Hi (Vx & Hx). rewrite (vget_ok n) by auto. cbn [bind]. rewrite Es by auto.
    pose proof (Sky i Hi) as Si.
    destruct (for_up_inv (fun j r => r = qsum (skyf i) j (fun m => cell a i m * vat x m)%Qc)
      (fun j sum => l <- read_const sh a i j ;; y <- vget x j ;; Ok (sum + l * y)%Qc) (skyf i) i 0%Qc) as (r & Er & Hr).
    + lia.
    + now rewrite qsum_nil by lia.
    + intros j r Hj ->. rewrite read_const_ok by (auto; lia). cbn [bind]. rewrite (vget_ok n) by (auto; lia). cbn [bind].
      eexists. split; [reflexivity|]. now rewrite (qsum_snoc (skyf i) j) by lia.
    + rewrite Er. cbn [bind]. rewrite (vget_ok n) by auto. cbn [bind].
      destruct (vset_ok n x i (vat b i - r)%Qc Vx Hi) as (x' & E' & V' & X' & O').
      exists x'. split; [auto|]. split; [auto|]. intros k Hk. destruct (Z.eq_dec k i) as [->|Ne].
      * rewrite X', Hr. rewrite (qsum_ext 0 i _ (fun m => cell a i m * vat x m)%Qc) by (intros; rewrite O' by lia; reflexivity).
        rewrite (qsum_skip 0 (skyf i) i); [ring|lia| |lia]. intros m Hm _. rewrite (Ze i m) by lia. ring.
      * rewrite O' by lia. rewrite <- (Hx k) by lia. f_equal. apply qsum_ext. intros m Hm. rewrite O' by lia. reflexivity.
  - exists x. auto.
Qed.

Lemma by_diagonal_ok a x : 0 <= n -> inv n a -> isvec n x ->
  exists r, by_diagonal sh a x = Ok r /\ isvec n r /\ forall i, 0 <= i < n -> (cell a i i * vat r i)%Qc = vat x i.
Proof.
  intros N (G & _ & _ & _ & Nz) Vx. unfold by_diagonal. assert (D : dim a = n) by apply G. rewrite D.
  destruct (for_up_inv (fun i r => isvec n r /\ forall k, 0 <= k < i -> (cell a k k * vat r k)%Qc = vat x k)
    (fun i r => y <- vget x i ;; d <- read_const sh a i i ;; q <- qdiv y d ;; vset r i q) 0 n (vnew n 0%Qc)) as (r & E & Vr & Hr).
  - lia.
  - split; [apply vnew_vec|intros; lia].
  - intros i r Hi (Vr & Hr). rewrite (vget_ok n) by auto. cbn [bind]. rewrite read_const_ok by (auto; lia). cbn [bind].
    unfold qdiv. destruct (Qc_eq_dec (cell a i i) 0) as [Z0|_]; [now destruct (Nz i Hi)|]. cbn [bind].
    destruct (vset_ok n r i (vat x i / cell a i i)%Qc Vr Hi) as (r' & E' & V' & X' & O').
    exists r'. split; [auto|split; [auto|]]. intros k Hk. destruct (Z.eq_dec k i) as [->|Ne].
    + rewrite X'. field. apply Nz; auto.
    + rewrite O' by lia. apply Hr. lia.
  - exists r. auto.
Qed.

Lemma count_back_ok j m : forall i acc, i + 1 = Z.of_nat m -> i < n -> 0 <= j <= i -> acc = n - 1 - i ->
  (forall k, i < k < n -> j < skyf k) ->
  exists c, count_back s j m i acc = Ok c /\ 0 <= c /\ c <= n - 1 - j /\ forall k, n - c <= k < n -> j < skyf k.
Proof.
  induction m as [|m IH]; intros i acc Im In Ji Ea Hk; [lia|]. cbn [count_back].
  rewrite (vget_ok n) by (auto; lia). cbn [bind]. rewrite Es by lia. destruct (Z.ltb_spec j (skyf i)) as [L|L].
  - pose proof (Sky i ltac:(lia)). apply IH; try lia. intros k K. destruct (Z.eq_dec k i) as [->|]; auto. apply Hk. lia.
  - exists acc. split; [auto|]. split; [lia|]. split; [lia|]. intros k K. apply Hk. lia.
Qed.
Lemma inverse_sky_ok j : 0 <= j < n ->
  exists c, inverse_sky s j = Ok c /\ 0 <= c /\ c <= n - 1 - j /\ forall k, n - c <= k < n -> j < skyf k.
Proof.
  intros J. unfold inverse_sky. destruct Vs as (C & _). rewrite C. apply count_back_ok; try lia.
Qed.

Lemma backward_ok a x2 : 0 <= n -> inv n a -> isvec n x2 ->
  exists x, backward sh s a x2 = Ok x /\ isvec n x /\
    forall i, 0 <= i < n -> (vat x i + qsum (i + 1) n (fun m => cell a m i * vat x m))%Qc = vat x2 i.
Proof.
  intros N (G & _ & Ze & _) V2. unfold backward. assert (D : dim a = n) by apply G. rewrite D.
  destruct (for_dn_inv (fun i x => isvec n x /\ forall k, i < k < n -> (vat x k + qsum (k + 1) n (fun m => cell a m k * vat x m))%Qc = vat x2 k)
    (fun i x => k <- inverse_sky s i ;;
      sum <- for_up (i + 1) (n - k) (fun j sum => l <- read_const sh a j i ;; y <- vget x j ;; Ok (sum + l * y)%Qc) 0%Qc ;;
      d <- vget x2 i ;; vset x i (d - sum)%Qc) (n - 1) 0 (vnew n 0%Qc)) as (x & E & Vx & Hx).
  - lia.
  - split; [apply vnew_vec|intros; lia].
  - intros i x Hi (Vx & Hx). destruct (inverse_sky_ok i ltac:(lia)) as (c & Ec & C0 & C1 & Hc). rewrite Ec. cbn [bind].
    destruct (for_up_inv (fun j r => r = qsum (i + 1) j (fun m => cell a m i * vat x m)%Qc)
      (fun j sum => l <- read_const sh a j i ;; y <- vget x j ;; Ok (sum + l * y)%Qc) (i + 1) (n - c) 0%Qc) as (r & Er & Hr).
    + lia.
    + now rewrite qsum_nil by lia.
    + intros j r Hj ->. rewrite read_const_ok by (auto; lia). cbn [bind]. rewrite (vget_ok n) by (auto; lia). cbn [bind].
      eexists. split; [reflexivity|]. now rewrite (qsum_snoc (i + 1) j) by lia.
    + rewrite Er. cbn [bind]. rewrite (vget_ok n) by (auto; lia). cbn [bind].
      destruct (vset_ok n x i (vat x2 i - r)%Qc Vx ltac:(lia)) as (x' & E' & V' & X' & O').
      exists x'. split; [auto|]. split; [auto|]. intros k Hk. destruct (Z.eq_dec k i) as [->|Ne].
      * rewrite X', Hr. rewrite (qsum_ext (i + 1) n _ (fun m => cell a m i * vat x m)%Qc) by (intros; rewrite O' by lia; reflexivity).
        rewrite (qsum_app (i + 1) (n - c) n) by lia. rewrite (qsum_zero (n - c) n); [ring|].
        intros m Hm. rewrite (Ze m i) by (try lia; apply Hc; lia). ring.
      * rewrite O' by lia. rewrite <- (Hx k) by lia. f_equal. apply qsum_ext. intros m Hm. rewrite O' by lia. reflexivity.
  - exists x. split; [exact E|]. split; [auto|]. intros i Hi. apply Hx. lia.
Qed.

Lemma inv_ldlt a : inv n a -> forall i j, 0 <= i < n -> 0 <= j < n -> A0 i j = ldlt n (cell a) (fun k => cell a k k) i j.
Proof. intros (_ & _ & _ & F & _). apply factor_ldlt; auto. intros. apply F; lia. Qed.

Lemma solve_ldl_ok a b : 0 <= n -> inv n a -> isvec n b ->
  (match out with None => sky a | Some s => s end = s) ->
  exists x, sparse_solve_ldl sh out a b = Ok x /\ isvec n x /\ solves n A0 (vat x) (vat b).
Proof.
  intros N Ia Vb Eo. unfold sparse_solve_ldl. rewrite Eo.
  destruct (forward_ok a b N Ia Vb) as (x1 & E1 & V1 & H1). rewrite E1. cbn [bind].
  destruct (by_diagonal_ok a x1 N Ia V1) as (x2 & E2 & V2 & H2). rewrite E2. cbn [bind].
  destruct (backward_ok a x2 N Ia V2) as (x & E & V & H). exists x. split; [auto|split; [auto|]].
  apply (solve_steps n A0 (cell a) (fun k => cell a k k) (vat b) (vat x1) (vat x2)); auto.
  apply inv_ldlt; auto.
Qed.
End Decomp.
End View.
