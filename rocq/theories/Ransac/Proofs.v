From Coq Require Import List ZArith Lia Bool QArith Permutation.
From Verif Require Import Lib.Base Ransac.Model Ransac.Spec.
Import ListNotations.
Open Scope Z_scope.

Lemma qltb_spec a b : reflect (a < b)%Q (qltb a b).
Proof.
  unfold qltb. destruct (Qle_bool b a) eqn:E; constructor.
  - apply Qle_bool_iff in E. intros L. now apply (Qlt_not_le _ _ L).
  - destruct (Qlt_le_dec a b); auto. apply Qle_bool_iff in q. congruence.
Qed.

Lemma pick_range r size : 0 <= r < 2147483648 -> 0 < size -> 0 <= pick r size < size.
Proof.
  intros R S. unfold pick. split.
  - apply Z.div_pos; nia.
  - apply Z.div_lt_upper_bound; nia.
Qed.

Lemma existsb_in x l : reflect (In x l) (existsb (Z.eqb x) l).
Proof.
  destruct (existsb (Z.eqb x) l) eqn:E; constructor.
  - apply existsb_exists in E. destruct E as (y & I & Q). apply Z.eqb_eq in Q. now subst.
  - intros I. assert (existsb (Z.eqb x) l = true) by (apply existsb_exists; exists x; split; auto; apply Z.eqb_refl).
    congruence.
Qed.

Section Draw.
Variable rnd : nat -> Z.
Hypothesis R : rand_ok rnd.

Lemma draw_ok fuel : forall k size chosen x k', 0 < size ->
  draw fuel rnd k size chosen = Ok (x, k') -> 0 <= x < size /\ ~ In x chosen /\ (k < k')%nat.
Proof.
  induction fuel as [|fuel IH]; intros k size chosen x k' S E; cbn [draw] in E; [discriminate|].
  destruct (existsb_in (pick (rnd k) size) chosen) as [I|N].
  - destruct (IH _ _ _ _ _ S E) as (? & ? & ?). repeat split; auto; lia.
  - injection E as <- <-. split; [apply pick_range; auto|split; auto].
Qed.

Lemma draw_cases fuel : forall k size chosen, (exists x, draw fuel rnd k size chosen = Ok x) \/ draw fuel rnd k size chosen = UB NoTerm.
Proof.
  induction fuel as [|fuel IH]; intros; cbn [draw]; auto.
  destruct (existsb (Z.eqb (pick (rnd k) size)) chosen); eauto.
Qed.

Lemma draws_ok fuel size : forall n k chosen l k', 0 < size \/ n = O ->
  NoDup chosen -> (forall i, In i chosen -> 0 <= i < size) ->
  draws fuel rnd k size n chosen = Ok (l, k') ->
  length l = (length chosen + n)%nat /\ NoDup l /\ (forall i, In i l -> 0 <= i < size).
Proof.
  induction n as [|n IH]; intros k chosen l k' S ND IN E; cbn [draws] in E.
  - injection E as <- <-. rewrite Nat.add_0_r. auto.
  - destruct S as [S|S]; [|discriminate].
    destruct (draw fuel rnd k size chosen) as [[x k1]| |] eqn:D; try discriminate. cbn [bind] in E.
    destruct (draw_ok _ _ _ _ _ _ S D) as (X & NI & _).
    apply IH in E; auto.
    + destruct E as (L & ? & ?). rewrite app_length in L. cbn [length] in L. split; [lia|auto].
    + clear - ND NI. induction chosen as [|y c IH]; cbn [app]; [constructor; [intros []|constructor]|].
      inversion ND; subst. constructor.
      * rewrite in_app_iff. intros [I|[<-|[]]]; auto. apply NI. now left.
      * apply IH; auto. intros I. apply NI. now right.
    + intros i I. apply in_app_iff in I. destruct I as [I|[<-|[]]]; auto.
Qed.

Lemma draws_cases fuel size : forall n k chosen,
  (exists x, draws fuel rnd k size n chosen = Ok x) \/ draws fuel rnd k size n chosen = UB NoTerm.
Proof.
  induction n as [|n IH]; intros; cbn [draws]; [eauto|].
  destruct (draw_cases fuel k size chosen) as [([x k1] & ->)| ->]; cbn [bind]; auto.
Qed.

Lemma unique_ok fuel k size n l k' :
  get_n_unique_integers fuel rnd k size n = Ok (l, k') -> is_sample size (Z.of_nat n) l.
Proof.
  unfold get_n_unique_integers. destruct (Z.ltb_spec size (Z.of_nat n)) as [?|L]; [discriminate|]. intros E.
  apply draws_ok in E.
  - destruct E as (E & ? & ?). cbn [length Nat.add] in E. split; [lia|auto].
  - lia.
  - constructor.
  - intros i [].
Qed.

Lemma all_samples_ok fuel size need : forall iters k l k',
  all_samples fuel rnd k size need iters = Ok (l, k') -> length l = iters /\ Forall (is_sample size need) l.
Proof.
  induction iters as [|iters IH]; intros k l k' E; cbn [all_samples] in E.
  - injection E as <- <-. auto.
  - destruct (Z.ltb_spec need 0) as [?|P]; [discriminate|].
    destruct (get_n_unique_integers fuel rnd k size (Z.to_nat need)) as [[s k1]| |] eqn:G; try discriminate. cbn [bind] in E.
    destruct (all_samples fuel rnd k1 size need iters) as [[m k2]| |] eqn:F; try discriminate. cbn [bind] in E.
    injection E as <- <-. destruct (IH _ _ _ F) as (L & FA). split; [cbn [length]; lia|].
    constructor; auto. apply unique_ok in G. now rewrite Z2Nat.id in G by lia.
Qed.

Lemma all_samples_cases fuel size need : forall iters k, need <= size ->
  (need < 0 /\ (0 < iters)%nat /\ all_samples fuel rnd k size need iters = Throw OtherErr) \/
  (0 <= need \/ iters = O) /\ ((exists x, all_samples fuel rnd k size need iters = Ok x) \/ all_samples fuel rnd k size need iters = UB NoTerm).
Proof.
  induction iters as [|iters IH]; intros k L; cbn [all_samples].
  - right. split; eauto.
  - destruct (Z.ltb_spec need 0) as [N|P]; [left; repeat split; auto; lia|]. right. split; [auto|].
    unfold get_n_unique_integers. rewrite Z2Nat.id by lia.
    destruct (Z.ltb_spec size need); [lia|].
    destruct (draws_cases fuel size (Z.to_nat need) k []) as [([s k1] & ->)| ->]; cbn [bind]; auto.
    destruct (IH k1 L) as [(? & ?)|(_ & [([m k2] & ->)| ->])]; [lia| |]; cbn [bind]; eauto.
Qed.

(** With a generator that comes back to every number. *)
Lemma draw_more fuel : forall fuel' k size chosen x, (fuel <= fuel')%nat ->
  draw fuel rnd k size chosen = Ok x -> draw fuel' rnd k size chosen = Ok x.
Proof.
  induction fuel as [|fuel IH]; intros fuel' k size chosen x L E; cbn [draw] in E; [discriminate|].
  destruct fuel' as [|fuel']; [lia|]. cbn [draw].
  destruct (existsb (Z.eqb (pick (rnd k) size)) chosen); auto. apply IH; auto; lia.
Qed.

Lemma draws_more fuel fuel' size : (fuel <= fuel')%nat -> forall n k chosen x,
  draws fuel rnd k size n chosen = Ok x -> draws fuel' rnd k size n chosen = Ok x.
Proof.
  intros L. induction n as [|n IH]; intros k chosen x E; cbn [draws] in E |- *; auto.
  destruct (draw fuel rnd k size chosen) as [[y k1]| |] eqn:D; try discriminate.
  rewrite (draw_more _ _ _ _ _ _ L D). cbn [bind] in E |- *. auto.
Qed.

Lemma draw_found size chosen v : ~ In v chosen -> forall d k, pick (rnd (k + d)) size = v ->
  exists x, draw (S d) rnd k size chosen = Ok x.
Proof.
  intros NI. induction d as [|d IH]; intros k E; cbn [draw].
  - rewrite Nat.add_0_r in E. rewrite E. destruct (existsb_in v chosen); [contradiction|eauto].
  - destruct (existsb_in (pick (rnd k) size) chosen); [|eauto].
    apply (IH (S k)). now rewrite Nat.add_succ_l, <- Nat.add_succ_r.
Qed.

Lemma fresh (chosen : list Z) size : NoDup chosen -> (forall i, In i chosen -> 0 <= i < size) ->
  Z.of_nat (length chosen) < size -> exists v, 0 <= v < size /\ ~ In v chosen.
Proof.
  intros ND IN L.
  destruct (List.Exists_dec (fun v => ~ In v chosen) (map Z.of_nat (seq 0 (Z.to_nat size)))) as [E|N].
  - intros v. destruct (in_dec Z.eq_dec v chosen); [right; auto|left; auto].
  - apply Exists_exists in E. destruct E as (v & I & NI). exists v. split; auto.
    apply in_map_iff in I. destruct I as (n & <- & I). apply in_seq in I. lia.
  - exfalso.
    assert (INC : incl (map Z.of_nat (seq 0 (Z.to_nat size))) chosen).
    { intros v I. destruct (in_dec Z.eq_dec v chosen); auto. exfalso. apply N. apply Exists_exists. eauto. }
    apply NoDup_incl_length in INC.
    + rewrite map_length, seq_length in INC. lia.
    + apply FinFun.Injective_map_NoDup; [intros x y; lia|apply seq_NoDup].
Qed.

Lemma draws_found size : (forall k v, 0 <= v < size -> exists k', (k <= k')%nat /\ pick (rnd k') size = v) ->
  forall n k chosen, NoDup chosen -> (forall i, In i chosen -> 0 <= i < size) ->
  Z.of_nat (length chosen + n) <= size -> exists fuel x, draws fuel rnd k size n chosen = Ok x.
Proof.
  intros BACK. induction n as [|n IH]; intros k chosen ND IN L; cbn [draws]; [exists O; eauto|].
  destruct (fresh chosen size ND IN ltac:(lia)) as (v & V & NI).
  destruct (BACK k v V) as (k' & LE & E).
  destruct (draw_found size chosen v NI (k' - k) k) as ((x & k1) & D); [replace (k + (k' - k))%nat with k' by lia; auto|].
  assert (S0 : 0 < size) by lia.
  destruct (draw_ok _ _ _ _ _ _ S0 D) as (X & NX & _).
  destruct (IH k1 (chosen ++ [x])) as (fuel & y & F).
  - apply (Permutation_NoDup (Permutation_cons_append chosen x)). now constructor.
  - intros i I. apply in_app_iff in I. destruct I as [I|[<-|[]]]; auto.
  - rewrite app_length. cbn [length]. lia.
  - exists (Nat.max (S (k' - k)) fuel), y.
    rewrite (draw_more _ (Nat.max (S (k' - k)) fuel) _ _ _ _ (Nat.le_max_l _ _) D). cbn [bind].
    apply (draws_more fuel); auto. apply Nat.le_max_r.
Qed.
End Draw.

Section Ransac.
Context {A B H : Type}.
Variable c : config A B H.

Lemma inliers_ok h : forall p1 p2, (length p1 <= length p2)%nat -> exists m,
  inliers c h p1 p2 = Ok (map fst m, map snd m) /\ selected (fun ab => (err c h ab < threshold c)%Q) (combine p1 p2) m.
Proof.
  induction p1 as [|a p1 IH]; intros [|b p2] L; cbn [inliers combine]; cbn [length] in L; try lia.
  - exists []. split; [reflexivity|constructor].
  - exists []. split; [reflexivity|constructor].
  - destruct (IH p2 ltac:(lia)) as (m & -> & S). cbn [bind].
    destruct (qltb_spec (error c h a b) (threshold c)).
    + exists ((a, b) :: m). split; [reflexivity|]. now constructor.
    + exists m. split; [reflexivity|]. now constructor.
Qed.

Lemma inliers_short h : forall p1 p2, (length p2 < length p1)%nat -> inliers c h p1 p2 = UB OutOfBounds.
Proof.
  induction p1 as [|a p1 IH]; intros [|b p2] L; cbn [inliers]; cbn [length] in L; try lia; auto.
  rewrite IH by lia. reflexivity.
Qed.

Lemma selected_fun {X} (P : X -> Prop) l : forall m m', selected P l m -> selected P l m' -> m = m'.
Proof.
  induction l as [|x l IH]; intros m m' S S'; inversion S; subst; inversion S'; subst; auto; try contradiction.
  f_equal; auto.
Qed.

Lemma indices_ok h : forall p1 p2 i, (length p1 <= length p2)%nat -> exists l,
  indices_from c i h p1 p2 = Ok l /\
  selected (fun j => exists ab, i <= j /\ nth_error (combine p1 p2) (Z.to_nat (j - i)) = Some ab /\ (err c h ab < threshold c)%Q)
    (map (fun n => i + Z.of_nat n) (seq 0 (length p1))) l.
Proof.
  induction p1 as [|a p1 IH]; intros p2 i L; cbn [indices_from].
  - exists []. split; [reflexivity|constructor].
  - destruct p2 as [|b p2]; cbn [length] in L; [lia|]. cbn [length seq map].
    destruct (IH p2 (i + 1) ltac:(lia)) as (l & -> & SL). cbn [bind].
    assert (S' : selected (fun j => exists ab, i <= j /\ nth_error (combine (a :: p1) (b :: p2)) (Z.to_nat (j - i)) = Some ab /\ (err c h ab < threshold c)%Q)
      (map (fun n => i + Z.of_nat n) (seq 1 (length p1))) l).
    { rewrite <- seq_shift, map_map.
      rewrite (map_ext (fun x => i + Z.of_nat (S x)) (fun n => i + 1 + Z.of_nat n)) by (intros; lia).
      assert (G : Forall (fun j => i + 1 <= j) (map (fun n => i + 1 + Z.of_nat n) (seq 0 (length p1)))).
      { apply Forall_forall. intros j I. apply in_map_iff in I. destruct I as (n & <- & _). lia. }
      clear - SL G. induction SL as [|x l m P SL IH|x l m P SL IH]; inversion G; subst; [constructor|constructor 2|constructor 3]; auto.
      - destruct P as (ab & ? & E & ?). exists ab. split; [lia|]. split; auto.
        replace (Z.to_nat (x - i)) with (S (Z.to_nat (x - (i + 1)))) by lia. exact E.
      - intros (ab & ? & E & ?). apply P. exists ab. split; [lia|]. split; auto.
        replace (Z.to_nat (x - i)) with (S (Z.to_nat (x - (i + 1)))) in E by lia. exact E. }
    replace (i + Z.of_nat 0) with i by lia.
    destruct (qltb_spec (error c h a b) (threshold c)) as [Q|Q].
    + exists (i :: l). split; [reflexivity|]. constructor; auto. exists (a, b). rewrite Z.sub_diag. split; [lia|]. split; auto.
    + exists l. split; [reflexivity|]. constructor; auto. intros (ab & _ & E & Q'). rewrite Z.sub_diag in E.
      injection E as <-. contradiction.
Qed.

Lemma elem_ok {X} (l : list X) i : 0 <= i < Z.of_nat (length l) -> exists x, elem l i = Ok x /\ nth_error l (Z.to_nat i) = Some x.
Proof.
  intros R. unfold elem. destruct (Z.ltb_spec i 0); [lia|].
  destruct (nth_error l (Z.to_nat i)) eqn:E; [eauto|]. apply nth_error_None in E. lia.
Qed.

Lemma nth_combine (p1 : list A) : forall (p2 : list B) i a b,
  nth_error p1 i = Some a -> nth_error p2 i = Some b -> nth_error (combine p1 p2) i = Some (a, b).
Proof.
  induction p1 as [|x p1 IH]; intros [|y p2] [|i] a b E F; cbn [nth_error combine] in *; try discriminate; auto.
  congruence.
Qed.

Lemma sample_ok (p1 : list A) (p2 : list B) s : length p1 = length p2 ->
  (forall i, In i s -> 0 <= i < Z.of_nat (length p1)) -> exists t,
  sample p1 s = Ok (map fst t) /\ sample p2 s = Ok (map snd t) /\
  Forall2 (fun i ab => 0 <= i /\ nth_error (combine p1 p2) (Z.to_nat i) = Some ab) s t.
Proof.
  intros L. induction s as [|i s IH]; intros IN; cbn [sample].
  - exists []. repeat split; constructor.
  - destruct IH as (t & -> & -> & F); [intros; apply IN; now right|].
    assert (I : 0 <= i < Z.of_nat (length p1)) by (apply IN; now left).
    destruct (elem_ok p1 i I) as (a & -> & EA). rewrite L in I.
    destruct (elem_ok p2 i I) as (b & -> & EB). cbn [bind].
    exists ((a, b) :: t). repeat split; auto. constructor; auto. split; [lia|]. now apply nth_combine.
Qed.

Lemma sum_ok h : forall m acc, exists e, sum_errors c h acc (map fst m) (map snd m) = Ok e /\ (e == acc + total (err c h) m)%Q.
Proof.
  induction m as [|[a b] m IH]; intros acc; cbn [map sum_errors fst snd total fold_right].
  - exists acc. split; [reflexivity|ring].
  - destruct (IH (acc + error c h a b)%Q) as (e & -> & E). exists e. split; [reflexivity|].
    rewrite E. unfold err at 2. cbn [fst snd]. fold (total (err c h) m). ring.
Qed.

Lemma iteration_cases least p1 p2 s : length p1 = length p2 ->
  (forall i, In i s -> 0 <= i < Z.of_nat (length p1)) ->
  (exists h e n, iteration c least p1 p2 s = Ok (Some (h, e, n)) /\ candidate c least p1 p2 s h e /\ least <= n /\ 1 <= n) \/
  (iteration c least p1 p2 s = Ok None /\ forall h e, ~ candidate c least p1 p2 s h e).
Proof.
  intros L IN. destruct (sample_ok p1 p2 s L IN) as (t & E1 & E2 & F).
  unfold iteration. rewrite E1, E2. cbn [bind].
  set (first := fit c (map fst t) (map snd t)).
  destruct (inliers_ok first p1 p2 ltac:(lia)) as (m & -> & S). cbn [bind]. rewrite map_length.
  assert (FUN : forall h e, candidate c least p1 p2 s h e -> least <= Z.of_nat (length m) /\ m <> []).
  { intros h e (t' & m' & F' & S' & LE & NE & _).
    assert (t' = t).
    { clear - F F'. revert t' F'. induction F as [|i ab s t (? & E) F IH]; intros t' F'; inversion F'; subst; auto.
      f_equal; [|auto]. match goal with H : _ /\ _ |- _ => destruct H as (_ & H); congruence end. }
    subst t'. fold first in S'. rewrite (selected_fun _ _ _ _ S S'). auto. }
  destruct (Z.ltb_spec (Z.of_nat (length m)) least) as [LT|GE].
  - right. split; auto. intros h e C. apply FUN in C. lia.
  - destruct (sum_ok (refit c (map fst m) (map snd m) first) m 0%Q) as (e & -> & E). cbn [bind].
    destruct (Z.eqb_spec (Z.of_nat (length m)) 0) as [Z0|NZ].
    + right. split; auto. intros h e' C. apply FUN in C. destruct C as (_ & NE). apply NE. destruct m; auto. discriminate.
    + left. do 3 eexists. split; [reflexivity|]. split; [|lia].
      exists t, m. split; auto. fold first. cbn zeta. split; auto. split; auto. split; [intros ->; apply NZ; reflexivity|]. split; auto.
      rewrite E. field. intros Q. apply NZ. unfold Qeq, inject_Z in Q. cbn [Qnum Qden] in Q. lia.
Qed.

Lemma candidate_fun least p1 p2 s h e h' e' : candidate c least p1 p2 s h e -> candidate c least p1 p2 s h' e' -> h = h' /\ (e == e')%Q.
Proof.
  intros (t & m & F & S & _ & NE & -> & E) (t' & m' & F' & S' & _ & _ & -> & E').
  assert (t' = t).
  { clear - F F'. revert t' F'. induction F as [|i ab s t (? & E) F IH]; intros t' F'; inversion F'; subst; auto.
    f_equal; [|auto]. match goal with H : _ /\ _ |- _ => destruct H as (_ & H); congruence end. }
  subst t'. rewrite (selected_fun _ _ _ _ S S') in *. split; auto.
  rewrite <- E' in E.
  apply Qmult_inj_r in E; auto.
  intros Q. apply NE. unfold Qeq, inject_Z in Q. cbn [Qnum Qden] in Q. destruct m'; auto. cbn [length] in Q. lia.
Qed.

(** The invariant of the shared variables, for the samples seen so far. *)
Definition seen (least : Z) (p1 : list A) (p2 : list B) (done : list (list Z)) (s : shared H) : Prop :=
  match min_err s with
  | None => best s = initial c /\ num_inliers s = 0 /\ forall x h e, In x done -> ~ candidate c least p1 p2 x h e
  | Some m => least <= num_inliers s /\ 1 <= num_inliers s /\
      (exists x, In x done /\ candidate c least p1 p2 x (best s) m) /\
      forall x h e, In x done -> candidate c least p1 p2 x h e -> (m <= e)%Q
  end.

Lemma run_ok least p1 p2 samples : length p1 = length p2 ->
  Forall (fun s => forall i, In i s -> 0 <= i < Z.of_nat (length p1)) samples ->
  forall order done s, Forall (fun i => (i < length samples)%nat) order -> seen least p1 p2 done s ->
  exists s' xs, run_iterations c least p1 p2 samples order s = Ok s' /\
    Forall2 (fun i x => nth_error samples i = Some x) order xs /\ seen least p1 p2 (done ++ xs) s'.
Proof.
  intros L FS. induction order as [|i order IH]; intros done s FO SN; cbn [run_iterations].
  - exists s, []. rewrite app_nil_r. auto.
  - inversion FO; subst.
    destruct (elem_ok samples (Z.of_nat i) ltac:(lia)) as (x & -> & E). rewrite Nat2Z.id in E. cbn [bind].
    assert (IN : forall j, In j x -> 0 <= j < Z.of_nat (length p1)).
    { rewrite Forall_forall in FS. apply FS. eapply nth_error_In; eauto. }
    assert (ST : exists cand, iteration c least p1 p2 x = Ok cand /\ seen least p1 p2 (done ++ [x]) (save s cand)).
    { destruct (iteration_cases least p1 p2 x L IN) as [(h & e & n & -> & C & LE & L1)|(-> & NC)].
      - exists (Some (h, e, n)). split; auto. unfold save.
        unfold seen in SN. destruct (min_err s) as [m|] eqn:M.
        + destruct SN as (N1 & N2 & (y & IY & CY) & MIN).
          destruct (qltb_spec e m) as [Q|Q].
          * unfold seen. cbn [min_err best num_inliers]. repeat split; auto.
            -- exists x. split; auto. apply in_app_iff. right. now left.
            -- intros y' h' e' I' C'. apply in_app_iff in I'. destruct I' as [I'|[<-|[]]].
               ++ apply Qlt_le_weak. apply Qlt_le_trans with m; auto. eapply MIN; eauto.
               ++ destruct (candidate_fun _ _ _ _ _ _ _ _ C C') as (_ & ->). apply Qle_refl.
          * unfold seen. rewrite M. repeat split; auto.
            -- exists y. split; auto. apply in_app_iff. now left.
            -- intros y' h' e' I' C'. apply in_app_iff in I'. destruct I' as [I'|[<-|[]]]; [eapply MIN; eauto|].
               destruct (candidate_fun _ _ _ _ _ _ _ _ C C') as (_ & <-). now apply Qnot_lt_le.
        + destruct SN as (_ & _ & NONE). unfold seen. cbn [min_err best num_inliers]. repeat split; auto.
          * exists x. split; auto. apply in_app_iff. right. now left.
          * intros y' h' e' I' C'. apply in_app_iff in I'. destruct I' as [I'|[<-|[]]]; [exfalso; eapply NONE; eauto|].
            destruct (candidate_fun _ _ _ _ _ _ _ _ C C') as (_ & ->). apply Qle_refl.
      - exists None. split; auto. cbn [save]. unfold seen in *. destruct (min_err s) as [m|].
        + destruct SN as (N1 & N2 & (y & IY & CY) & MIN). repeat split; auto.
          * exists y. split; auto. apply in_app_iff. now left.
          * intros y' h' e' I' C'. apply in_app_iff in I'. destruct I' as [I'|[<-|[]]]; [eapply MIN; eauto|].
            exfalso. eapply NC; eauto.
        + destruct SN as (? & ? & NONE). repeat split; auto. intros y' h' e' I' C'.
          apply in_app_iff in I'. destruct I' as [I'|[<-|[]]]; [eapply NONE; eauto|eapply NC; eauto]. }
    destruct ST as (cand & -> & SN'). cbn [bind].
    match goal with H : Forall _ order |- _ => destruct (IH _ _ H SN') as (s' & xs & -> & F2 & SN'') end.
    exists s', (x :: xs). split; auto. split; [now constructor|]. now rewrite <- app_assoc in SN''.
Qed.

Lemma perm_all {X} (samples : list X) order xs : Permutation order (seq 0 (length samples)) ->
  Forall2 (fun i x => nth_error samples i = Some x) order xs -> forall x, In x xs <-> In x samples.
Proof.
  intros P F x. split; intros I.
  - apply In_nth_error in I. destruct I as (k & E). clear P. revert k E.
    induction F as [|i y order xs Ey F IH]; intros [|k] E; cbn [nth_error] in E; try discriminate.
    + injection E as <-. eapply nth_error_In; eauto.
    + eauto.
  - apply In_nth_error in I. destruct I as (k & E).
    assert (IK : In k order).
    { apply Permutation_sym in P. eapply Permutation_in; [exact P|]. apply in_seq.
      assert (nth_error samples k <> None) by congruence. apply nth_error_Some in H0. lia. }
    clear P. induction F as [|i y order xs Ey F IH]; [destruct IK|].
    destruct IK as [->|IK]; [left; congruence|right; auto].
Qed.

Lemma attempt_ok fuel rnd k order least p1 p2 samples k' a q :
  rand_ok rnd -> Permutation order (seq 0 (Z.to_nat (iterations c))) -> ~ refused c least p1 p2 -> p1 = a :: q ->
  all_samples fuel rnd k (Z.of_nat (length p1)) (needed c a) (Z.to_nat (iterations c)) = Ok (samples, k') ->
  exists s, seen least p1 p2 samples s /\
    attempt_ransac c fuel rnd k order least p1 p2 = (if num_inliers s <? least then Throw OtherErr else Ok (best s), k').
Proof.
  intros R P NR EP AS. destruct (all_samples_ok _ R _ _ _ _ _ _ _ AS) as (LS & FS).
  unfold refused in NR. unfold attempt_ransac. subst p1. set (p1 := a :: q) in *.
  assert (L : length p1 = length p2) by (destruct (Nat.eq_dec (length p1) (length p2)); auto; exfalso; tauto).
  destruct (Nat.eqb_spec (length p1) (length p2)) as [_|N]; [cbn [negb]|contradiction].
  destruct (Z.ltb_spec (Z.of_nat (length p1)) (needed c a)); [tauto|].
  destruct (Z.ltb_spec least (needed c a)); [tauto|].
  destruct (Z.ltb_spec (iterations c) 0); [tauto|]. rewrite AS.
  destruct (run_ok least p1 p2 samples L) with (order := order) (done := @nil (list Z)) (s := Shared None (initial c) 0) as (s & xs & -> & F2 & SN).
  - apply Forall_forall. intros s I. rewrite Forall_forall in FS. apply FS in I. apply I.
  - apply Forall_forall. intros i I. apply (Permutation_in _ P) in I. apply in_seq in I. lia.
  - unfold seen. cbn [min_err best num_inliers]. auto.
  - cbn [app] in SN. exists s. split; [|reflexivity].
    rewrite <- LS in P. pose proof (perm_all samples order xs P F2) as ALL.
    unfold seen in *. destruct (min_err s).
    + destruct SN as (N1 & N2 & (y & IY & CY) & MIN). repeat split; auto.
      * exists y. split; auto. now apply ALL.
      * intros x h e I. apply MIN. now apply ALL.
    + destruct SN as (? & ? & NONE). repeat split; auto. intros x h e I. apply NONE. now apply ALL.
Qed.

Lemma attempt_refused fuel rnd k order least p1 p2 : refused c least p1 p2 ->
  attempt_ransac c fuel rnd k order least p1 p2 = (Throw OtherErr, k).
Proof.
  unfold refused, attempt_ransac. destruct p1 as [|a q]; auto. set (p1 := a :: q).
  intros RF.
  destruct (Nat.eqb_spec (length p1) (length p2)); [cbn [negb]|reflexivity].
  destruct (Z.ltb_spec (Z.of_nat (length p1)) (needed c a)); [reflexivity|].
  destruct (Z.ltb_spec least (needed c a)); [reflexivity|].
  destruct (Z.ltb_spec (iterations c) 0); [reflexivity|].
  assert (needed c a < 0 /\ 0 < iterations c) as (N & I).
  { destruct RF as [?|[?|[?|[?|?]]]]; try lia; auto; contradiction. }
  destruct (Z.to_nat (iterations c)) eqn:E; [lia|]. cbn [all_samples].
  destruct (Z.ltb_spec (needed c a) 0); [reflexivity|lia].
Qed.

Lemma refused_dec least p1 p2 : refused c least p1 p2 \/ ~ refused c least p1 p2.
Proof.
  unfold refused. destruct p1 as [|a q]; auto. set (p1 := a :: q).
  destruct (Nat.eq_dec (length p1) (length p2)); [|tauto].
  destruct (Z_lt_dec (Z.of_nat (length p1)) (needed c a)); [tauto|].
  destruct (Z_lt_dec least (needed c a)); [tauto|].
  destruct (Z_lt_dec (iterations c) 0); [tauto|].
  destruct (Z_lt_dec (needed c a) 0); [|right; tauto].
  destruct (Z_lt_dec 0 (iterations c)); [left; tauto|right; tauto].
Qed.

Lemma attempt_safe fuel rnd k order least p1 p2 r k' : rand_ok rnd -> Permutation order (seq 0 (Z.to_nat (iterations c))) ->
  attempt_ransac c fuel rnd k order least p1 p2 = (r, k') ->
  match r with Ok _ => True | Throw e => e = OtherErr | UB u => u = NoTerm end.
Proof.
  intros R P. destruct (refused_dec least p1 p2) as [RF|NR].
  - rewrite attempt_refused by auto. intros E. injection E as <- <-. reflexivity.
  - destruct p1 as [|a q] eqn:EP; [exfalso; apply NR; exact I|]. rewrite <- EP in *.
    destruct (all_samples_cases rnd fuel (Z.of_nat (length p1)) (needed c a) (Z.to_nat (iterations c)) k) as [(N & I & _)|(_ & [([samples k1] & AS)|AS])].
    + unfold refused in NR. rewrite EP in NR |- *. cbn [length] in *. lia.
    + exfalso. apply NR. rewrite EP. unfold refused. do 4 right. split; auto. lia.
    + destruct (attempt_ok fuel rnd k order least p1 p2 samples k1 a q R P NR EP AS) as (s & _ & ->).
      intros E. injection E as <- <-. destruct (num_inliers s <? least); auto.
    + unfold attempt_ransac. rewrite EP. rewrite EP in AS.
      destruct (negb _); [intros E; injection E as <- <-; reflexivity|].
      destruct (_ <? _); [intros E; injection E as <- <-; reflexivity|].
      destruct (_ <? _); [intros E; injection E as <- <-; reflexivity|].
      destruct (_ <? _); [intros E; injection E as <- <-; reflexivity|].
      rewrite AS. intros E. injection E as <- <-. reflexivity.
Qed.
End Ransac.
