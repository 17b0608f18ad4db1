From Coq Require Import List ZArith QArith Bool Lia Lqa.
From Verif Require Import Lib.Base Interp.Model Interp.Spec.
Import ListNotations.
Open Scope Q_scope.

#[export] Instance peval_comp c : Proper (Qeq ==> Qeq) (peval c).
Proof. induction c as [|a c IH]; intros x y E; cbn [peval]; [reflexivity|]. now rewrite (IH x y E), E. Qed.

Fixpoint padd (a b : list Q) : list Q :=
  match a, b with [], b => b | a, [] => a | x :: a, y :: b => (x + y) :: padd a b end.
Definition pscale (k : Q) (a : list Q) : list Q := map (Qmult k) a.
(** Times (x - r). *)
Definition proot (r : Q) (a : list Q) : list Q := padd (0 :: a) (pscale (- r) a).

Lemma padd_eval a : forall b x, peval (padd a b) x == peval a x + peval b x.
Proof.
  induction a as [|u a IH]; intros b x; [cbn [padd peval]; ring|]. destruct b as [|v b]; cbn [padd peval]; [ring|]. rewrite IH. ring.
Qed.
Lemma padd_length a : forall b, length (padd a b) = Nat.max (length a) (length b).
Proof. induction a as [|u a IH]; intros b; [reflexivity|]. destruct b as [|v b]; cbn [padd length]; [lia|]. rewrite IH. lia. Qed.
Lemma pscale_eval k a x : peval (pscale k a) x == k * peval a x.
Proof. induction a as [|u a IH]; cbn [pscale map peval]; [ring|]. unfold pscale in IH. rewrite IH. ring. Qed.
Lemma pscale_length k a : length (pscale k a) = length a.
Proof. apply map_length. Qed.
Lemma proot_eval r a x : peval (proot r a) x == (x - r) * peval a x.
Proof. unfold proot. rewrite padd_eval, pscale_eval. cbn [peval]. ring. Qed.
Lemma proot_length r a : length (proot r a) = S (length a).
Proof. unfold proot. rewrite padd_length, pscale_length. cbn [length]. lia. Qed.

Fixpoint pdiv (c : list Q) (r : Q) : list Q :=
  match c with [] => [] | _ :: c => padd c (pscale r (pdiv c r)) end.
Lemma pdiv_length c r : (length (pdiv c r) <= pred (length c))%nat.
Proof. induction c as [|a c IH]; cbn [pdiv length pred]; [lia|]. rewrite padd_length, pscale_length. lia. Qed.
Lemma pdiv_eval c r x : peval c x == (x - r) * peval (pdiv c r) x + peval c r.
Proof.
  induction c as [|a c IH]; cbn [pdiv peval]; [ring|]. rewrite padd_eval, pscale_eval, IH. ring.
Qed.

Definition apart (l : list Q) : Prop := ForallOrdPairs (fun a b => ~ b == a) l.

(** A polynomial of degree less than the number of its zeros is zero. *)
Lemma roots l : forall c, apart l -> (length c <= length l)%nat -> (forall x, In x l -> peval c x == 0) -> forall x, peval c x == 0.
Proof.
  induction l as [|r l IH]; intros c A L Z x.
  - destruct c; [reflexivity|cbn [length] in L; lia].
  - inversion A as [|? ? A1 A2]; subst. rewrite Forall_forall in A1. assert (ZR := Z r (or_introl eq_refl)).
    rewrite (pdiv_eval c r). rewrite ZR. rewrite (IH (pdiv c r)); [ring|auto| |].
    + pose proof (pdiv_length c r). cbn [length] in L. lia.
    + intros y I. specialize (Z y (or_intror I)). rewrite (pdiv_eval c r y), ZR in Z.
      assert (Z' : (y - r) * peval (pdiv c r) y == 0) by lra. destruct (Qmult_integral _ _ Z') as [E|E]; auto. exfalso. apply (A1 y I). lra.
Qed.

Lemma same_poly l c c' : apart l -> (length c <= length l)%nat -> (length c' <= length l)%nat -> (forall x, In x l -> peval c x == peval c' x) ->
  forall x, peval c x == peval c' x.
Proof.
  intros A L L' E x. assert (Z : peval (padd c (pscale (-1 # 1) c')) x == 0).
  { apply (roots l); auto.
    - rewrite padd_length, pscale_length. lia.
    - intros y I. rewrite padd_eval, pscale_eval, (E y I). ring. }
  rewrite padd_eval, pscale_eval in Z. lra.
Qed.

(** ** Lagrange's polynomial *)

Definition others (j : Z) (l : list Z) : list Z := filter (fun i => negb (i =? j)%Z) l.
Definition qprod (f : Z -> Q) (l : list Z) : Q := fold_right (fun i p => f i * p) 1 l.
Definition qsum (f : Z -> Q) (l : list Z) : Q := fold_right (fun i p => f i + p) 0 l.
Lemma qsum_ext f g l : (forall i, In i l -> f i == g i) -> qsum f l == qsum g l.
Proof. induction l as [|i l IH]; intros E; cbn [qsum fold_right]; [reflexivity|]. unfold qsum in IH. rewrite (E i) by now left. rewrite IH; [reflexivity|]. intros; apply E; now right. Qed.
Lemma qprod_ext f g l : (forall i, In i l -> f i == g i) -> qprod f l == qprod g l.
Proof. induction l as [|i l IH]; intros E; cbn [qprod fold_right]; [reflexivity|]. unfold qprod in IH. rewrite (E i) by now left. rewrite IH; [reflexivity|]. intros; apply E; now right. Qed.
Lemma qprod_nonzero f l : (forall i, In i l -> ~ f i == 0) -> ~ qprod f l == 0.
Proof.
  induction l as [|i l IH]; intros E; cbn [qprod fold_right]; [intros X; discriminate X|]. unfold qprod in IH. intros Z. apply Qmult_integral in Z. destruct Z as [Z|Z].
  - apply (E i); auto. now left. - apply IH; auto. intros; apply E; now right.
Qed.
Lemma qprod_zero f l i : In i l -> f i == 0 -> qprod f l == 0.
Proof. induction l as [|k l IH]; intros I Z; [destruct I|]. cbn [qprod fold_right]. unfold qprod in IH. destruct I as [->|I]; [rewrite Z; ring|]. rewrite (IH I Z). ring. Qed.
Lemma qsum_one f l k : NoDup l -> In k l -> (forall i, In i l -> i <> k -> f i == 0) -> qsum f l == f k.
Proof.
  induction 1 as [|i l NI ND IH]; intros I Z; [destruct I|]. cbn [qsum fold_right]. unfold qsum in IH. destruct I as [->|I].
  - assert (E : qsum f l == 0).
    { transitivity (qsum (fun _ => 0) l); [apply qsum_ext; intros i I; apply Z; [now right|]; intros ->; contradiction|].
      clear. induction l as [|a l IH]; cbn [qsum fold_right]; [reflexivity|]. unfold qsum in IH. rewrite IH. ring. }
    unfold qsum in E. rewrite E. ring.
  - rewrite IH; auto; [|intros; apply Z; auto; now right]. rewrite (Z i); [ring|now left|]. intros ->; contradiction.
Qed.

Lemma others_in i j l : In i (others j l) <-> In i l /\ i <> j.
Proof. unfold others. rewrite filter_In. destruct (Z.eqb_spec i j); cbn [negb]; intuition congruence. Qed.
Lemma others_length j l : NoDup l -> In j l -> S (length (others j l)) = length l.
Proof.
  induction 1 as [|i l NI ND IH]; intros I; [destruct I|]. unfold others. cbn [filter length]. destruct (Z.eqb_spec i j) as [->|N]; cbn [negb length].
  - f_equal. clear -NI. induction l as [|a l IH]; [reflexivity|]. cbn [filter]. destruct (Z.eqb_spec a j) as [->|N]; [exfalso; apply NI; now left|]. cbn [negb length]. rewrite IH; auto. intros I; apply NI; now right.
  - f_equal. destruct I as [->|I]; [contradiction|]. apply IH; auto.
Qed.

Section Lagrange.
Variables T V : Z -> Q.
Definition lag (l : list Z) (x : Q) : Q :=
  qsum (fun j => qprod (fun i => x - T i) (others j l) / qprod (fun i => T j - T i) (others j l) * V j) l.

Definition separated (l : list Z) : Prop := NoDup l /\ forall i j, In i l -> In j l -> i <> j -> ~ T i == T j.

(** It goes through the samples. *)
Lemma lag_at l k : separated l -> In k l -> lag l (T k) == V k.
Proof.
  intros (ND & SEP) I. unfold lag. rewrite (qsum_one _ l k); auto.
  - cbn beta. field. apply qprod_nonzero. intros i J. apply others_in in J. destruct J as (J & N). intros Z. apply (SEP k i); auto. lra.
  - intros j J N. rewrite (qprod_zero (fun i => T k - T i) (others j l) k); [|apply others_in; auto|ring]. field.
    apply qprod_nonzero. intros i JJ. apply others_in in JJ. destruct JJ as (JJ & N'). intros Z. apply (SEP j i); auto. lra.
Qed.

Fixpoint proots (l : list Z) : list Q := match l with [] => [1] | i :: l => proot (T i) (proots l) end.
Lemma proots_eval l x : peval (proots l) x == qprod (fun i => x - T i) l.
Proof. induction l as [|i l IH]; cbn [proots qprod fold_right]; [cbn [peval]; ring|]. rewrite proot_eval, IH. reflexivity. Qed.
Lemma proots_length l : length (proots l) = S (length l).
Proof. induction l as [|i l IH]; cbn [proots length]; [reflexivity|]. rewrite proot_length, IH. reflexivity. Qed.

Lemma lag_poly l : separated l -> exists c, (length c <= length l)%nat /\ forall x, peval c x == lag l x.
Proof.
  intros (ND & SEP). unfold lag. set (n := length l).
  assert (G : forall m, incl m l -> exists c, (length c <= n)%nat /\ forall x, peval c x ==
    qsum (fun j => qprod (fun i => x - T i) (others j l) / qprod (fun i => T j - T i) (others j l) * V j) m).
  { induction m as [|j m IH]; intros I.
    - exists []. cbn [length peval qsum fold_right]. split; [lia|reflexivity].
    - destruct IH as (c & L & E); [intros x J; apply I; now right|].
      exists (padd (pscale (V j / qprod (fun i => T j - T i) (others j l)) (proots (others j l))) c). split.
      + rewrite padd_length, pscale_length, proots_length, others_length; auto. { unfold n. lia. } apply I; now left.
      + intros x. rewrite padd_eval, pscale_eval, proots_eval, E. 
        unfold qsum at 2. cbn [fold_right]. fold (qsum (fun j => qprod (fun i => x - T i) (others j l) / qprod (fun i => T j - T i) (others j l) * V j) m).
        set (rest := qsum _ m). clearbody rest. field.
        apply qprod_nonzero. intros i JJ. apply others_in in JJ. destruct JJ as (JJ & N'). intros Z. apply (SEP j i); auto; [apply I; now left|lra]. }
  apply G. apply incl_refl.
Qed.

(** Any polynomial of small degree through the samples has its values. *)
Lemma lag_unique l c x : separated l -> (length c <= length l)%nat -> (forall k, In k l -> peval c (T k) == V k) -> lag l x == peval c x.
Proof.
  intros SP L E. destruct (lag_poly l SP) as (c' & L' & E'). rewrite <- E'. apply (same_poly (map T l)); try (rewrite map_length; auto).
  - destruct SP as (ND & SEP). clear -ND SEP. induction ND as [|i l NI ND IH]; cbn [map]; constructor.
    + apply Forall_forall. intros y I. apply in_map_iff in I. destruct I as (j & <- & I). apply SEP; [now right|now left|]. intros ->; contradiction.
    + apply IH. intros; apply SEP; auto; now right.
  - intros y I. apply in_map_iff in I. destruct I as (k & <- & I). rewrite E', lag_at; auto. symmetry. auto.
Qed.
End Lagrange.
