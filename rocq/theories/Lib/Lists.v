(* List update and counting lemmas.  Nothing here models a file of /repo. *)
From Coq Require Import ZArith List Lia Bool Arith.
Import ListNotations.

(* [upd l i v]: l with position i replaced by v, l itself if i is outside. *)
Fixpoint upd {A} (l : list A) (i : nat) (v : A) : list A :=
  match l, i with
  | [], _ => []
  | _ :: t, O => v :: t
  | a :: t, S i' => a :: upd t i' v
  end.

Lemma upd_length {A} (l : list A) : forall i v, length (upd l i v) = length l.
Proof. induction l; destruct i; simpl; auto. Qed.
Lemma upd_eq {A} (l : list A) : forall i v, i < length l -> nth_error (upd l i v) i = Some v.
Proof. induction l; destruct i; simpl; intros; try lia; auto. apply IHl; lia. Qed.
Lemma upd_neq {A} (l : list A) : forall i j v, i <> j -> nth_error (upd l i v) j = nth_error l j.
Proof. induction l; destruct i, j; simpl; intros; auto; congruence. Qed.
Lemma upd_nth_eq {A} (l : list A) i v d : i < length l -> nth i (upd l i v) d = v.
Proof. intros. erewrite nth_error_nth; [reflexivity|]. apply upd_eq; auto. Qed.
Lemma upd_nth_neq {A} (l : list A) : forall i j v d, i <> j -> nth j (upd l i v) d = nth j l d.
Proof. induction l; destruct i, j; simpl; intros; auto; congruence. Qed.
Lemma upd_out {A} (l : list A) : forall i v, length l <= i -> upd l i v = l.
Proof. induction l; destruct i; simpl; intros; auto; try lia. f_equal; apply IHl; lia. Qed.
Lemma upd_map {A B} (f : A -> B) (l : list A) : forall i v, map f (upd l i v) = upd (map f l) i (f v).
Proof. induction l; destruct i; simpl; intros; auto. f_equal; auto. Qed.

Lemma nth_error_lt {A} (l : list A) i v : nth_error l i = Some v -> i < length l.
Proof. intros H. apply nth_error_Some. congruence. Qed.
Lemma nth_error_ex {A} (l : list A) i : i < length l -> exists v, nth_error l i = Some v.
Proof. intros H. destruct (nth_error l i) eqn:E; eauto. apply nth_error_None in E. lia. Qed.
Lemma nth_error_snoc {A} (l : list A) v : nth_error (l ++ [v]) (length l) = Some v.
Proof. rewrite nth_error_app2 by lia. rewrite Nat.sub_diag. reflexivity. Qed.

(* number of elements satisfying a test *)
Definition count {A} (f : A -> bool) (l : list A) : nat := length (filter f l).
Lemma count_app {A} (f : A -> bool) l m : count f (l ++ m) = count f l + count f m.
Proof. unfold count. rewrite filter_app, app_length. reflexivity. Qed.
Lemma count_ext {A} (f g : A -> bool) l : (forall x, In x l -> f x = g x) -> count f l = count g l.
Proof.
  unfold count. induction l; intros H; simpl; auto. rewrite (H a) by (left; auto).
  destruct (g a); simpl; rewrite IHl; auto; intros; apply H; right; auto.
Qed.
Lemma count_orb {A} (f g : A -> bool) l : (forall x, In x l -> f x && g x = false) ->
  count (fun x => f x || g x) l = count f l + count g l.
Proof.
  unfold count. induction l; intros H; simpl; auto. pose proof (H a (or_introl eq_refl)) as Ha.
  assert (IH := IHl (fun x Hx => H x (or_intror Hx))).
  destruct (f a), (g a); simpl in *; try discriminate; lia.
Qed.
Lemma count_le {A} (f : A -> bool) l : count f l <= length l.
Proof. unfold count. induction l; simpl; auto. destruct (f a); simpl; lia. Qed.
Lemma count_pos {A} (f : A -> bool) l x : In x l -> f x = true -> 1 <= count f l.
Proof.
  unfold count. intros H F. assert (I : In x (filter f l)) by (apply filter_In; auto).
  destruct (filter f l); [contradiction|simpl; lia].
Qed.
