(** Proofs about the filters that look at a window. *)
From Coq Require Import List ZArith QArith Qround Qabs Bool Lia Lqa Permutation Sorted.
From Verif Require Import Lib.Base Lib.Img BBox.Box2 Disp.Model Disp.Spec Disp.MProofs.
Import ListNotations.
Open Scope Q_scope.

Fixpoint foldM {A S : Type} (f : A -> S -> res S) (l : list A) (s : S) : res S :=
  match l with [] => Ok s | x :: l' => s' <- f x s ;; foldM f l' s' end.
Lemma bind_ext {A B} (m : res A) (f g : A -> res B) : (forall x, f x = g x) -> bind m f = bind m g.
Proof. intros H. destruct m; cbn; auto. Qed.
Lemma bind_assoc {A B C} (m : res A) (f : A -> res B) (g : B -> res C) : bind (bind m f) g = bind m (fun x => bind (f x) g).
Proof. destruct m; auto. Qed.
Lemma foldM_app {A S} (f : A -> S -> res S) l l' : forall s, foldM f (l ++ l') s = (s' <- foldM f l s ;; foldM f l' s').
Proof. induction l; intros s; cbn [foldM app]; auto. rewrite bind_assoc. apply bind_ext. intros; apply IHl. Qed.
Lemma foldM_pure {A S} (f : A -> S -> res S) (g : S -> A -> S) l : (forall x s, f x s = Ok (g s x)) ->
  forall s, foldM f l s = Ok (fold_left g l s).
Proof. intros H. induction l as [|x l IH]; intros s; cbn [foldM fold_left]; auto. rewrite H. cbn [bind]. apply IH. Qed.

(** A row of the kernel. *)
Lemma zseq_shift n : forall a b, zseq (a + b) n = map (fun x => a + x)%Z (zseq b n).
Proof. induction n; intros a b; cbn [zseq map]; auto. f_equal. rewrite <- IHn. f_equal. lia. Qed.
Lemma row_fold {A S} (g : A -> S -> res S) (f : Z -> A) i n : forall a s,
  loop n a (fun xk s => g (f (i + xk)%Z) s) s = foldM g (map f (zseq (i + a) n)) s.
Proof.
  induction n; intros a s; cbn [loop zseq map foldM]; auto. apply bind_ext. intros s'. rewrite IHn. do 3 f_equal. lia.
Qed.
Lemma kernel_fold {A S} (rd : Z -> Z -> res A) (f : Z -> Z -> A) (g : A -> S -> res S) h v i j s :
  (forall a b, rd a b = Ok (f a b)) -> (0 <= h)%Z -> (0 <= v)%Z ->
  over_kernel h v (fun xk yk s => c <- rd (i + xk)%Z (j + yk)%Z ;; g c s) s = foldM g (window f h v i j) s.
Proof.
  intros R H V. unfold over_kernel, window, window_rows, for_up, zrange.
  replace (Z.to_nat (j + v + 1 - (j - v))) with (Z.to_nat (v + 1 - - v)) by lia.
  replace (Z.to_nat (i + h + 1 - (i - h))) with (Z.to_nat (h + 1 - - h)) by lia.
  replace (j - v)%Z with (j + - v)%Z by lia. generalize (Z.to_nat (v + 1 - - v)) as n. generalize (- v)%Z as a. intros a n. revert a s.
  induction n as [|n IH]; intros a s; cbn [loop zseq map concat foldM]; auto.
  rewrite foldM_app.
  replace (i - h)%Z with (i + - h)%Z by lia. rewrite <- row_fold.
  assert (E : forall m b t, loop m b (fun xk s0 => c <- rd (i + xk)%Z (j + a)%Z ;; g c s0) t = loop m b (fun xk s0 => g (f (i + xk)%Z (j + a)%Z) s0) t).
  { induction m; intros b t; cbn [loop]; auto. rewrite R. cbn [bind]. apply bind_ext. intros; apply IHm. }
  rewrite E. apply bind_ext. intros s'. replace (j + a + 1)%Z with (j + (a + 1))%Z by lia.
  replace (i + - h)%Z with (i - h)%Z by lia. apply IH.
Qed.

Lemma concat_len {A} (l : list (list A)) n : (forall r, In r l -> length r = n) -> length (concat l) = (length l * n)%nat.
Proof. induction l; intros H; cbn [concat length]; auto. rewrite app_length, IHl by (intros; apply H; right; auto). rewrite (H a) by (left; auto). lia. Qed.
Lemma window_len {A} (f : Z -> Z -> A) h v i j : (0 <= h)%Z -> (0 <= v)%Z -> Z.of_nat (length (window f h v i j)) = ((2 * h + 1) * (2 * v + 1))%Z.
Proof.
  intros H V. unfold window, window_rows. rewrite (concat_len _ (Z.to_nat (2 * h + 1))).
  - rewrite map_length, zrange_length. nia.
  - intros r I. apply in_map_iff in I as (y & <- & _). rewrite map_length, zrange_length. lia.
Qed.
Lemma in_window {A} (f : Z -> Z -> A) h v i j c :
  In c (window f h v i j) <-> exists x y, (i - h <= x <= i + h)%Z /\ (j - v <= y <= j + v)%Z /\ f x y = c.
Proof.
  unfold window, window_rows. rewrite in_concat. split.
  - intros (r & I & J). apply in_map_iff in I as (y & <- & Iy). apply in_map_iff in J as (x & <- & Ix). apply in_zrange in Ix, Iy.
    exists x, y. repeat split; lia.
  - intros (x & y & Ix & Iy & <-). exists (map (fun x => f x y) (zrange (i - h) (i + h + 1))). split.
    + apply in_map_iff. exists y. split; auto. apply in_zrange. lia.
    + apply in_map_iff. exists x. split; auto. apply in_zrange. lia.
Qed.
Lemma window_map {A B} (F : A -> B) f h v i j : window (fun x y => F (f x y)) h v i j = map F (window f h v i j).
Proof.
  unfold window, window_rows. rewrite concat_map, map_map. f_equal. apply map_ext. intros y. rewrite map_map. reflexivity.
Qed.

(** ** Edges *)
Lemma clamp_nearest n i : (0 < n)%Z -> clamp n i = nearest n i.
Proof.
  intros H. unfold clamp, nearest. destruct (Z.ltb_spec i 0); [lia|]. rewrite Z.geb_leb. destruct (Z.leb_spec n i); lia.
Qed.
Lemma extended_ok {A} (m : img A) i j : nonempty m -> extended m i j = Ok (edge m i j).
Proof.
  intros [H V]. unfold extended, edge. rewrite !clamp_nearest by auto. apply get_in. unfold nearest. split; lia.
Qed.
Lemma edge_in {A} (m : img A) i j : inside m i j -> edge m i j = pix m i j.
Proof. intros [H V]. unfold edge, nearest. f_equal; lia. Qed.

(** ** Threshold *)
Lemma kernel_okP h v : kernel_ok h v = true <-> (0 < h /\ 0 < v)%Z.
Proof. unfold kernel_ok. rewrite andb_true_iff, !Z.ltb_lt. reflexivity. Qed.

Lemma count_fold th a l : forall x y,
  fold_left (fun (s : Z * Z) c => ((if valid c && Qle_bool (Qabs (dx a - dx c)) th && Qle_bool (Qabs (dy a - dy c)) th then (fst s + 1)%Z else fst s), (snd s + 1)%Z)) l (x, y)
  = ((x + count (close th a) l)%Z, (y + Z.of_nat (length l))%Z).
Proof.
  induction l as [|c l IH]; intros x y; cbn [fold_left length]; [unfold count; cbn; f_equal; lia|].
  cbn [fst snd]. rewrite IH. unfold count. cbn [filter]. unfold close at 2.
  destruct (valid c && Qle_bool (Qabs (dx a - dx c)) th && Qle_bool (Qabs (dy a - dy c)) th); cbn [length]; f_equal; lia.
Qed.

Definition passes (f : Z -> Z -> px) (h v : Z) (th rej : Q) (i j : Z) : bool :=
  valid (f i j) && Qle_bool (rej * inject_Z ((2 * h + 1) * (2 * v + 1))) (inject_Z (count (close th (f i j)) (window f h v i j))).

Lemma thresh_ok rd f h v th rej i j : (forall a b, rd a b = Ok (f a b)) -> (0 < h)%Z -> (0 < v)%Z ->
  thresh_at rd h v th rej i j = Ok (if valid (f i j) then if passes f h v th rej i j then f i j else no_px else f i j).
Proof.
  intros R H V. unfold thresh_at. rewrite (proj2 (kernel_okP h v)) by auto. cbn [negb]. rewrite R. cbn [bind].
  unfold passes. destruct (valid (f i j)) eqn:VA; cbn [negb andb]; auto.
  rewrite (kernel_fold rd f (fun c s => Ok ((if valid c && Qle_bool (Qabs (dx (f i j) - dx c)) th && Qle_bool (Qabs (dy (f i j) - dy c)) th then (fst s + 1)%Z else fst s), (snd s + 1)%Z)))
    by (auto; lia).
  rewrite (foldM_pure _ (fun (s : Z * Z) c => ((if valid c && Qle_bool (Qabs (dx (f i j) - dx c)) th && Qle_bool (Qabs (dy (f i j) - dy c)) th then (fst s + 1)%Z else fst s), (snd s + 1)%Z))) by reflexivity.
  rewrite count_fold. cbn [bind fst snd]. rewrite window_len by lia. rewrite !Z.add_0_l.
  set (n := ((2 * h + 1) * (2 * v + 1))%Z). assert (P : 0 < inject_Z n) by (change 0 with (inject_Z 0); apply inj_lt; unfold n; nia).
  set (c := inject_Z (count (close th (f i j)) (window f h v i j))). clearbody n c.
  destruct (ltqP (c / inject_Z n) rej) as [L|L], (leqP (rej * inject_Z n) c) as [K|K]; auto; exfalso.
  - apply Qle_shift_div_l in K; auto. lra.
  - apply L. apply Qlt_shift_div_r; auto. lra.
Qed.

Lemma rm_ok m h v th rej i j : nonempty m -> (0 < h)%Z -> (0 < v)%Z ->
  rm_outliers m h v th rej i j = Ok (if valid (edge m i j) then if passes (edge m) h v th rej i j then edge m i j else no_px else edge m i j).
Proof. intros N H V. unfold rm_outliers. rewrite (thresh_ok _ (edge m)); auto. intros. apply extended_ok; auto. Qed.

Definition first_pass m h v th rej i j : px :=
  if valid (edge m i j) then if passes (edge m) h v th rej i j then edge m i j else no_px else edge m i j.
Lemma cleanup_ok m h v th rej i j : nonempty m -> (0 < h)%Z -> (0 < v)%Z ->
  cleanup m h v th rej i j = Ok (let f := first_pass m h v th rej in
    if valid (f i j) then if passes f 1 1 3 (1 # 5) i j then f i j else no_px else f i j).
Proof. intros N H V. unfold cleanup. rewrite (thresh_ok _ (first_pass m h v th rej)); auto; try lia. intros. apply rm_ok; auto. Qed.

(** ** Order *)
Lemma count_perm {A} (P : A -> bool) l l' : Permutation l l' -> count P l = count P l'.
Proof.
  intros H. unfold count. induction H; cbn [filter]; auto.
  - destruct (P x); cbn [length]; lia.
  - destruct (P x), (P y); cbn [length]; lia.
  - congruence.
Qed.
Lemma sorted_nth (l : list Q) m : StronglySorted Qle l -> forall k x, nth_error l k = Some x ->
  (2 * x < m <-> (Z.of_nat k < count (fun y => ltq (2 * y) m) l)%Z).
Proof.
  unfold count. induction 1 as [|a l SS IH F]; intros k x E; [destruct k; discriminate|]. rewrite Forall_forall in F. cbn [filter].
  destruct k as [|k]; cbn [nth_error] in E.
  - injection E as ->. destruct (ltqP (2 * x) m) as [L|L]; cbn [length]; [split; [lia|auto]|]. split; [intros; contradiction|]. intros K.
    destruct (filter (fun y => ltq (2 * y) m) l) as [|y t] eqn:FE; [cbn in K; lia|].
    assert (I : In y (filter (fun y => ltq (2 * y) m) l)) by (rewrite FE; left; auto). apply filter_In in I as [I L'].
    specialize (F _ I). destruct (ltqP (2 * y) m); [lra|discriminate].
  - specialize (IH _ _ E). pose proof (F x (nth_error_In _ _ E)). destruct (ltqP (2 * a) m) as [L|L]; cbn [length].
    + rewrite IH. lia.
    + rewrite IH. split; [|lia]. intros K. exfalso. apply IH in K. lra.
Qed.

Definition sorts (sort : list Q -> list Q) : Prop := forall l, Permutation l (sort l) /\ StronglySorted Qle (sort l).

Lemma count_mags m (l : list px) :
  count (fun y => ltq (2 * y) m) (map magnitude (filter valid l)) = count (fun p => valid p && ltq (2 * magnitude p) m) l.
Proof.
  unfold count. f_equal. induction l as [|p l IH]; cbn [filter map]; auto. destruct (valid p); cbn [map filter andb]; auto.
  destruct (ltq (2 * magnitude p) m); cbn [length]; auto.
Qed.
Lemma cutoff_ok sort l : sorts sort -> filter valid l <> [] -> exists x, cutoff sort (map magnitude (filter valid l)) = Ok x /\
  forall c, ltq x (magnitude c) = gross l c.
Proof.
  intros HS N. unfold cutoff. set (len := map magnitude (filter valid l)).
  destruct len as [|q qs] eqn:EL; [unfold len in EL; destruct (filter valid l); [congruence|discriminate]|]. rewrite <- EL.
  destruct (HS len) as [P SS]. pose proof (Permutation_length P) as PL.
  assert (LN : (0 < Z.of_nat (length len))%Z) by (rewrite EL; cbn [length]; lia).
  set (k := Z.to_nat (3 * Z.of_nat (length len) / 4)).
  assert (KL : Z.of_nat k = (3 * Z.of_nat (length len) / 4)%Z) by (unfold k; rewrite Z2Nat.id; auto; apply Z.div_pos; lia).
  assert (KB : (3 * Z.of_nat (length len) / 4 < Z.of_nat (length len))%Z) by (apply Z.div_lt_upper_bound; lia).
  destruct (nth_error (sort len) k) as [x|] eqn:E.
  - exists (2 * x). split; auto. intros c. pose proof (sorted_nth _ (magnitude c) SS _ _ E) as SN.
    rewrite <- (count_perm _ _ _ P) in SN. unfold len in SN. rewrite count_mags in SN. unfold gross. change magnitude1 with magnitude.
    assert (CN : count valid l = Z.of_nat (length len)) by (unfold len, count; rewrite map_length; auto). rewrite CN, <- KL.
    destruct (ltqP (2 * x) (magnitude c)) as [L|L]; symmetry; [apply Z.ltb_lt, SN; auto|apply Z.ltb_ge]. 
    destruct (Z_lt_le_dec (Z.of_nat k) (count (fun p => valid p && ltq (2 * magnitude p) (magnitude c)) l)) as [K|]; auto. apply SN in K. contradiction.
  - apply nth_error_None in E. lia.
Qed.

(** ** Mean *)
Definition add3 (s : Q * Q * Z) (c : px) : Q * Q * Z := let '(sx, sy, n) := s in if valid c then (sx + dx c, sy + dy c, (n + 1)%Z) else (sx, sy, n).

Section Row.
  Variables (rd : Z -> Z -> res px) (f : Z -> Z -> px) (cut : Q) (i y : Z).
  Hypothesis R : forall a b, rd a b = Ok (f a b).
  Let big (c : px) : bool := valid c && ltq cut (magnitude c).
  Let body := (fun (_ : Z) (t : Z * (Q * Q * Z)) =>
                let '(col, (sx, sy, n)) := t in
                c <- rd (i + col)%Z y ;;
                if valid c then
                  if ltq cut (magnitude c) then Ok t
                  else Ok ((col + 1)%Z, (sx + dx c, sy + dy c, (n + 1)%Z))
                else Ok ((col + 1)%Z, (sx, sy, n))).
  Lemma stuck n : forall a col s, big (f (i + col)%Z y) = true -> loop n a body (col, s) = Ok (col, s).
  Proof.
    induction n; intros a col s B; cbn [loop]; auto. destruct s as [[sx sy] m]. unfold body at 1. rewrite R. cbn [bind].
    pose proof B as B'. unfold big in B'. apply andb_prop in B' as [V L]. rewrite V, L. cbn [bind]. apply IHn; auto.
  Qed.
  Lemma row_mean n : forall a col s, exists c', loop n a body (col, s) = Ok (c', fold_left add3 (before big (map (fun x => f x y) (zseq (i + col) n))) s).
  Proof.
    induction n; intros a col s; cbn [loop zseq map before fold_left]; [eauto|]. destruct (big (f (i + col)%Z y)) eqn:B.
    - cbn [fold_left]. exists col. pose proof (stuck (S n) a col s B) as K. cbn [loop] in K. exact K.
    - destruct s as [[sx sy] m]. unfold body at 1. rewrite R. cbn [bind fold_left]. unfold big in B. unfold add3 at 2.
      replace (i + col + 1)%Z with (i + (col + 1))%Z by lia.
      destruct (valid (f (i + col)%Z y)); cbn [andb] in B; [rewrite B|]; cbn [bind]; apply IHn.
  Qed.
End Row.

Lemma before_ext {A} (P P' : A -> bool) l : (forall x, P x = P' x) -> before P l = before P' l.
Proof. intros H. induction l as [|x l IH]; cbn [before]; auto. rewrite H, IH. auto. Qed.
Lemma fold_concat {A S} (f : S -> A -> S) ll : forall s, fold_left (fun s l => fold_left f l s) ll s = fold_left f (concat ll) s.
Proof. induction ll; intros s; cbn [fold_left concat]; auto. rewrite fold_left_app. auto. Qed.
Lemma add3_filter l : forall s, fold_left add3 l s = fold_left add3 (filter valid l) s.
Proof.
  induction l as [|c l IH]; intros s; cbn [fold_left filter]; auto. destruct (valid c) eqn:V; cbn [fold_left]; auto. rewrite <- IH. unfold add3 at 2.
  destruct s as [[a b] n]. rewrite V. auto.
Qed.
Lemma add3_sum l : (forall c, In c l -> valid c = true) -> forall a b n, exists x y,
  fold_left add3 l (a, b, n) = (x, y, (n + Z.of_nat (length l))%Z) /\ x == a + sumq (map dx l) /\ y == b + sumq (map dy l).
Proof.
  induction l as [|c l IH]; intros V a b n; cbn [fold_left map sumq fold_right length].
  - exists a, b. rewrite Z.add_0_r. split; [auto|split; lra].
  - unfold add3 at 2. rewrite (V c) by (left; auto). destruct (IH ltac:(intros; apply V; right; auto) (a + dx c) (b + dy c) (n + 1)%Z) as (x & y & E & X & Y).
    exists x, y. rewrite E. split; [f_equal; lia|]. unfold sumq in *. cbn [map fold_right]. split; [rewrite X|rewrite Y]; lra.
Qed.

Lemma mean_rows rd f cut h v i j s : (forall a b, rd a b = Ok (f a b)) -> (0 <= h)%Z -> (0 <= v)%Z ->
  for_up (- v) (v + 1) (fun yk (s : Q * Q * Z) =>
         t <- for_up (- h) (h + 1) (fun _ (t : Z * (Q * Q * Z)) =>
                let '(col, (sx, sy, n)) := t in
                c <- rd (i + col)%Z (j + yk)%Z ;;
                if valid c then
                  if ltq cut (magnitude c) then Ok t
                  else Ok ((col + 1)%Z, (sx + dx c, sy + dy c, (n + 1)%Z))
                else Ok ((col + 1)%Z, (sx, sy, n))) ((- h)%Z, s) ;;
         Ok (snd t)) s
  = Ok (fold_left add3 (concat (map (before (fun c => valid c && ltq cut (magnitude c))) (window_rows f h v i j))) s).
Proof.
  intros R H V. rewrite <- fold_concat. unfold window_rows, for_up, zrange.
  replace (Z.to_nat (j + v + 1 - (j - v))) with (Z.to_nat (v + 1 - - v)) by lia.
  replace (Z.to_nat (i + h + 1 - (i - h))) with (Z.to_nat (h + 1 - - h)) by lia.
  replace (j - v)%Z with (j + - v)%Z by lia. generalize (Z.to_nat (v + 1 - - v)) as n. generalize (- v)%Z as a. intros a n. revert a s.
  induction n as [|n IH]; intros a s; cbn [loop zseq map fold_left]; auto.
  destruct (row_mean rd f cut i (j + a) R (Z.to_nat (h + 1 - - h)) (- h)%Z (- h)%Z s) as (c' & E).
  match type of E with ?L = _ => match goal with |- bind (bind ?L' _) _ = _ => change L' with L end end. rewrite E. cbn [bind snd].
  replace (j + a + 1)%Z with (j + (a + 1))%Z by lia. replace (i + - h)%Z with (i - h)%Z by lia. apply IH.
Qed.

Lemma mean_ok sort rd f h v d i j : sorts sort -> (forall a b, rd a b = Ok (f a b)) -> (0 < h)%Z -> (0 < v)%Z ->
  mean_at sort rd h v d i j = Ok (if valid (f i j) then if near_mean (read_kept (window_rows f h v i j)) d (f i j) then f i j else no_px else f i j).
Proof.
  intros HS R H V. unfold mean_at. rewrite (proj2 (kernel_okP h v)) by auto. cbn [negb]. rewrite R. cbn [bind].
  destruct (valid (f i j)) eqn:VA; cbn [negb]; auto.
  rewrite (kernel_fold rd f (fun c len => Ok (if valid c then len ++ [magnitude c] else len))) by (auto; lia).
  rewrite (foldM_pure _ (fun (len : list Q) c => if valid c then len ++ [magnitude c] else len)) by reflexivity. cbn [bind].
  assert (EL : forall l s, fold_left (fun (len : list Q) c => if valid c then len ++ [magnitude c] else len) l s = s ++ map magnitude (filter valid l)).
  { induction l as [|c l IH]; intros s; cbn [fold_left filter map]; [now rewrite app_nil_r|]. rewrite IH. destruct (valid c); cbn [map]; auto. rewrite <- app_assoc. auto. }
  rewrite EL. cbn [app].
  destruct (cutoff_ok sort (window f h v i j) HS) as (cut & EC & G).
  { intros N. assert (I : In (f i j) (filter valid (window f h v i j))); [|rewrite N in I; destruct I].
    apply filter_In. split; auto. apply in_window. exists i, j. repeat split; lia. }
  rewrite EC. cbn [bind]. rewrite (mean_rows rd f) by (auto; lia). cbn [bind].
  rewrite (map_ext _ (before (fun p => valid p && gross (concat (window_rows f h v i j)) p))).
  2:{ intros r. apply before_ext. intros c. rewrite G. reflexivity. }
  rewrite add3_filter. fold (read_kept (window_rows f h v i j)). set (l := read_kept (window_rows f h v i j)).
  destruct (add3_sum l) with (a := 0) (b := 0) (n := 0%Z) as (x & y & E & X & Y).
  { intros c I. apply filter_In in I. apply I. }
  rewrite E. rewrite Z.add_0_l. unfold near_mean. clearbody l. destruct l as [|c l].
  - cbn [length Z.of_nat]. change (0 <? 0)%Z with false. cbv iota. cbv zeta. destruct (ltqP (d * d) (d * d + 1)); auto. lra.
  - set (n := Z.of_nat (length (c :: l))) in *. assert (NP : (0 < n)%Z) by (unfold n; cbn [length]; lia).
    destruct (Z.ltb_spec 0 n); [|lia]. cbv zeta. unfold mean, lenq. rewrite !map_length. fold n.
    set (t := sumq (map dx (c :: l))) in *. set (u := sumq (map dy (c :: l))) in *. clearbody n t u.
    assert (X' : x / inject_Z n == t / inject_Z n) by (rewrite X, Qplus_0_l; reflexivity).
    assert (Y' : y / inject_Z n == u / inject_Z n) by (rewrite Y, Qplus_0_l; reflexivity).
    set (X1 := x / inject_Z n) in *. set (X2 := t / inject_Z n) in *. set (Y1 := y / inject_Z n) in *. set (Y2 := u / inject_Z n) in *. clearbody X1 X2 Y1 Y2.
    destruct (ltqP (d * d) ((dx (f i j) - X1) * (dx (f i j) - X1) + (dy (f i j) - Y1) * (dy (f i j) - Y1))) as [L|L],
      (leqP ((dx (f i j) - X2) * (dx (f i j) - X2) + (dy (f i j) - Y2) * (dy (f i j) - Y2)) (d * d)) as [K|K]; auto; exfalso.
    + rewrite X', Y' in L. lra.
    + rewrite X', Y' in L. lra.
Qed.

Lemma before_all {A} (P : A -> bool) l : (forall x, In x l -> P x = false) -> before P l = l.
Proof. induction l as [|x l IH]; intros H; cbn [before]; auto. rewrite H by (left; auto). f_equal. apply IH. intros; apply H; right; auto. Qed.
Lemma kept_all rows : (forall p, In p (concat rows) -> valid p = true -> gross (concat rows) p = false) -> read_kept rows = kept rows.
Proof.
  intros H. unfold read_kept, kept. replace (map (before (fun p => valid p && gross (concat rows) p)) rows) with rows.
  - apply filter_ext_in. intros p I. destruct (valid p) eqn:V; auto. now rewrite (H p I V).
  - rewrite <- (map_id rows) at 1. apply map_ext_in. intros r I. symmetry. apply before_all. intros p J.
    destruct (valid p) eqn:V; auto. apply H; auto. apply in_concat. eauto.
Qed.

(** ** Deviation *)
Lemma fold_sum {A} (g : A -> Q) l : forall s, fold_left (fun s p => s + g p) l s == s + sumq (map g l).
Proof. induction l as [|x l IH]; intros s; cbn [fold_left map]; unfold sumq in *; cbn [fold_right]; [lra|]. rewrite IH. lra. Qed.
Lemma sumq_ext {A} (g g' : A -> Q) l : (forall x, g x == g' x) -> sumq (map g l) == sumq (map g' l).
Proof. intros H. unfold sumq. induction l as [|x l IH]; cbn [map fold_right]; [lra|]. rewrite IH, H. lra. Qed.
Lemma dev_boundP t r var e : 0 <= t -> (e <= t * t * dev_bound r var <-> e <= t * t * var \/ (0 <= r /\ e <= t * t * (r * r))) \/ var < 0.
Proof.
  intros T. unfold dev_bound. assert (TT : 0 <= t * t) by nra. set (s := t * t) in *. clearbody s.
  destruct (ltqP r 0) as [N|N].
  - destruct (ltqP var 0); [right; auto|]. left. split; [left; auto|]. intros [K|[K _]]; auto. lra.
  - left. assert (RR : 0 <= r) by lra. set (q := r * r). clearbody q. destruct (ltqP var q) as [L|L].
    + split; [right; auto|]. intros [K|[_ K]]; auto. apply (Qle_trans _ _ _ K). rewrite (Qmult_comm s var), (Qmult_comm s q). apply Qmult_le_compat_r; lra.
    + split; [left; auto|]. intros [K|[_ K]]; auto. apply (Qle_trans _ _ _ K). rewrite (Qmult_comm s var), (Qmult_comm s q). apply Qmult_le_compat_r; lra.
Qed.
Lemma sumq_nonneg l : (forall x, In x l -> 0 <= x) -> 0 <= sumq l.
Proof. unfold sumq. induction l as [|x l IH]; intros H; cbn [fold_right]; [lra|]. pose proof (H x (or_introl eq_refl)). pose proof (IH ltac:(intros; apply H; right; auto)). lra. Qed.

Lemma vals_fold cap l : forall s : list (Q * Q),
  foldM (fun c s => if valid c then if (Z.of_nat (length s) <? cap)%Z then Ok (s ++ [(dx c, dy c)]) else UB OutOfBounds else Ok s) l s =
  if (Z.of_nat (length s) + count valid l <=? cap)%Z || (count valid l =? 0)%Z then Ok (s ++ map (fun c => (dx c, dy c)) (filter valid l)) else UB OutOfBounds.
Proof.
  unfold count. induction l as [|c l IH]; intros s; cbn [foldM filter map]; [cbn; rewrite orb_true_r, app_nil_r; auto|].
  destruct (valid c); cbn [length map].
  - destruct (Z.ltb_spec (Z.of_nat (length s)) cap) as [L|L].
    + cbn [bind]. rewrite IH. rewrite app_length. cbn [length]. rewrite <- app_assoc. cbn [app].
      destruct (Z.leb_spec (Z.of_nat (length s + 1) + Z.of_nat (length (filter valid l))) cap),
        (Z.leb_spec (Z.of_nat (length s) + Z.of_nat (S (length (filter valid l)))) cap),
        (Z.eqb_spec (Z.of_nat (length (filter valid l))) 0), (Z.eqb_spec (Z.of_nat (S (length (filter valid l)))) 0); cbn [orb]; auto; lia.
    + cbn [bind]. destruct (Z.leb_spec (Z.of_nat (length s) + Z.of_nat (S (length (filter valid l)))) cap), (Z.eqb_spec (Z.of_nat (S (length (filter valid l)))) 0); cbn [orb]; auto; lia.
  - cbn [bind]. apply IH.
Qed.

Lemma stddev_ok rd f h v t r i j : (forall a b, rd a b = Ok (f a b)) -> (0 < h)%Z -> (0 < v)%Z -> 0 <= t ->
  valid (f i j) = true ->
  let l := filter valid (window f h v i j) in
  if (count valid (window f h v i j) <=? (2 * v + 1) * (2 * v + 1))%Z then
    (within_dev t r (map dx l) (dx (f i j)) /\ within_dev t r (map dy l) (dy (f i j)) -> stddev_at rd h v t r i j = Ok (f i j)) /\
    (~ (within_dev t r (map dx l) (dx (f i j)) /\ within_dev t r (map dy l) (dy (f i j))) -> stddev_at rd h v t r i j = Ok no_px)
  else stddev_at rd h v t r i j = UB OutOfBounds.
Proof.
  intros R H V T VA l. unfold stddev_at. rewrite (proj2 (kernel_okP h v)) by auto. cbn [negb]. rewrite R. cbn [bind]. rewrite VA. cbn [negb]. cbv zeta.
  set (cap := ((2 * v + 1) * (2 * v + 1))%Z).
  rewrite (kernel_fold rd f (fun c s => if valid c then if (Z.of_nat (length s) <? cap)%Z then Ok (s ++ [(dx c, dy c)]) else UB OutOfBounds else Ok s)) by (auto; lia).
  rewrite vals_fold. cbn [length Z.of_nat app]. rewrite Z.add_0_l. fold l.
  assert (NE : l <> []).
  { intros N. assert (I : In (f i j) l); [|rewrite N in I; destruct I].
    apply filter_In. split; auto. apply in_window. exists i, j. repeat split; lia. }
  assert (LP : (0 < count valid (window f h v i j))%Z) by (unfold count; fold l; destruct l; [congruence|cbn [length]; lia]).
  destruct (Z.eqb_spec (count valid (window f h v i j)) 0); [lia|]. rewrite orb_false_r. clear LP n.
  destruct (Z.leb_spec (count valid (window f h v i j)) cap); [|reflexivity]. cbn [bind].
  destruct (map (fun c => (dx c, dy c)) l) as [|q0 qs] eqn:EV; [destruct l; [congruence|discriminate]|]. rewrite <- EV. clear EV q0 qs.
  clearbody l. rewrite map_length. fold (lenq l).
  set (vals := map (fun c => (dx c, dy c)) l).
  assert (MX : fold_left (fun s p => s + fst p) vals 0 / lenq l == mean (map dx l)).
  { unfold mean. rewrite fold_sum, Qplus_0_l. unfold vals. rewrite map_map. unfold lenq at 2. rewrite map_length. reflexivity. }
  assert (MY : fold_left (fun s p => s + snd p) vals 0 / lenq l == mean (map dy l)).
  { unfold mean. rewrite fold_sum, Qplus_0_l. unfold vals. rewrite map_map. unfold lenq at 2. rewrite map_length. reflexivity. }
  set (mx := fold_left (fun s p => s + fst p) vals 0 / lenq l) in *. set (my := fold_left (fun s p => s + snd p) vals 0 / lenq l) in *. clearbody mx my.
  assert (VX : fold_left (fun s p => s + (fst p - mx) * (fst p - mx)) vals 0 / lenq l == variance (map dx l)).
  { unfold variance. unfold mean at 1. rewrite fold_sum, Qplus_0_l. unfold vals. rewrite !map_map. unfold lenq at 2. rewrite !map_length.
    cbn [fst]. rewrite (sumq_ext _ (fun x => (dx x - mean (map dx l)) * (dx x - mean (map dx l)))); [reflexivity|]. intros x. rewrite MX. reflexivity. }
  assert (VY : fold_left (fun s p => s + (snd p - my) * (snd p - my)) vals 0 / lenq l == variance (map dy l)).
  { unfold variance. unfold mean at 1. rewrite fold_sum, Qplus_0_l. unfold vals. rewrite !map_map. unfold lenq at 2. rewrite !map_length.
    cbn [snd]. rewrite (sumq_ext _ (fun x => (dy x - mean (map dy l)) * (dy x - mean (map dy l)))); [reflexivity|]. intros x. rewrite MY. reflexivity. }
  set (vx := fold_left (fun s p => s + (fst p - mx) * (fst p - mx)) vals 0 / lenq l) in *.
  set (vy := fold_left (fun s p => s + (snd p - my) * (snd p - my)) vals 0 / lenq l) in *. clearbody vx vy.
  assert (VP : forall k, 0 <= variance k).
  { intros k. unfold variance. unfold mean at 1. destruct k as [|q k]; [vm_compute; discriminate|].
    apply Qle_shift_div_l; [change 0 with (inject_Z 0); unfold lenq; apply inj_lt; rewrite map_length; cbn [length]; lia|]. rewrite Qmult_0_l.
    apply sumq_nonneg. intros x I. apply in_map_iff in I as (z & <- & _). set (d := z - mean (q :: k)). clearbody d. destruct (Qlt_le_dec d 0); nra. }
  assert (BX : forall m1 m2 w1 w2 e, m1 == m2 -> w1 == w2 -> 0 <= w2 ->
    ((e - m1) * (e - m1) <= t * t * dev_bound r w1 <-> (e - m2) * (e - m2) <= t * t * w2 \/ (0 <= r /\ (e - m2) * (e - m2) <= t * t * (r * r)))).
  { intros m1 m2 w1 w2 e M W P. destruct (dev_boundP t r w1 ((e - m1) * (e - m1)) T) as [D|D]; [|lra]. rewrite D, M, W. reflexivity. }
  pose proof (BX mx _ vx _ (dx (f i j)) MX VX (VP _)) as X. pose proof (BX my _ vy _ (dy (f i j)) MY VY (VP _)) as Y.
  unfold within_dev. rewrite <- X, <- Y.
  destruct (ltqP (t * t * dev_bound r vx) ((dx (f i j) - mx) * (dx (f i j) - mx))) as [L|L],
    (ltqP (t * t * dev_bound r vy) ((dy (f i j) - my) * (dy (f i j) - my))) as [K|K]; cbn [orb]; split; intros Q; auto; try lra.
Qed.

(** ** Variance of a window *)
Lemma std_dev_ok rd f a b i j : (forall x y, rd x y = Ok (f x y)) -> (0 <= a)%Z -> (0 <= b)%Z -> (0 < a + b)%Z ->
  exists q, std_dev_at rd (2 * a + 1) (2 * b + 1) i j = Ok q /\ q == unbiased (window f a b i j).
Proof.
  intros R A B AB. unfold std_dev_at. rewrite (proj2 (Z.ltb_lt 0 (2 * a + 1))), (proj2 (Z.ltb_lt 0 (2 * b + 1))) by lia. cbn [andb negb].
  replace ((2 * a + 1) / 2)%Z with a by (apply Z.div_unique with 1%Z; lia). replace ((2 * b + 1) / 2)%Z with b by (apply Z.div_unique with 1%Z; lia).
  rewrite (kernel_fold rd f (fun c s => Ok (s + c))) by (auto; lia). rewrite (foldM_pure _ Qplus) by reflexivity. cbn [bind].
  set (w := window f a b i j). assert (LW : Z.of_nat (length w) = ((2 * a + 1) * (2 * b + 1))%Z) by (apply window_len; auto).
  rewrite <- LW. fold (lenq w). assert (LP : (1 < Z.of_nat (length w))%Z) by nia.
  assert (QP : 1 < lenq w) by (change 1 with (inject_Z 1); unfold lenq; apply inj_lt; auto).
  unfold divq at 1. destruct (Qeq_bool (lenq w) 0) eqn:E0; [apply Qeq_bool_iff in E0; lra|]. cbn [bind].
  assert (M : fold_left Qplus w 0 / lenq w == mean w).
  { unfold mean. rewrite (fold_sum (fun x => x)), Qplus_0_l, map_id. reflexivity. }
  set (m := fold_left Qplus w 0 / lenq w) in *. clearbody m.
  rewrite (kernel_fold rd f (fun c s => Ok (s + (c - m) * (c - m)))) by (auto; lia).
  rewrite (foldM_pure _ (fun s c => s + (c - m) * (c - m))) by reflexivity. cbn [bind]. fold w.
  assert (LE : inject_Z (Z.of_nat (length w) - 1) == lenq w - 1).
  { unfold lenq. replace (Z.of_nat (length w) - 1)%Z with (Z.of_nat (length w) + - (1))%Z by lia. rewrite inject_Z_plus, inject_Z_opp. change (inject_Z 1) with 1. lra. }
  unfold divq. destruct (Qeq_bool (inject_Z (Z.of_nat (length w) - 1)) 0) eqn:E1; [apply Qeq_bool_iff in E1; lra|]. eexists. split; [reflexivity|].
  unfold unbiased. rewrite (fold_sum (fun c => (c - m) * (c - m))), Qplus_0_l, LE. rewrite (sumq_ext _ (fun x => (x - mean w) * (x - mean w))); [reflexivity|].
  intros x. rewrite M. reflexivity.
Qed.
