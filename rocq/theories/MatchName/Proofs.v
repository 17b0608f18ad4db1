From Verif Require Import Lib.Base Lib.Str MatchName.Model MatchName.Spec.
From Coq Require Import List ZArith Ascii String Bool Lia.
Import ListNotations.
Open Scope nat_scope.

Lemma hex_length k h : List.length (hex k h) = k.
Proof.
  revert h; induction k as [|k IH]; intros h; [reflexivity|].
  cbn [hex]. rewrite app_length, IH. cbn [List.length]. lia.
Qed.

Lemma hash_length t : List.length (fnv1a64Hex t) = 16.
Proof. apply hex_length. Qed.

Lemma shorten_length t m : List.length (shortenName t m) <= m.
Proof.
  unfold shortenName. destruct (Nat.leb_spec (List.length t) m) as [L|L]; [exact L|].
  rewrite hash_length.
  destruct (Nat.leb_spec m (16 + 1)) as [M|M].
  - rewrite firstn_length. destruct (Nat.ltb_spec m 16); lia.
  - rewrite !app_length, hash_length, firstn_length. cbn [lit list_ascii_of_string List.length]. lia.
Qed.

Lemma shorten_short t m : List.length t <= m -> shortenName t m = t.
Proof. intros H. unfold shortenName. apply Nat.leb_le in H. rewrite H. reflexivity. Qed.

(** ** Components *)

Lemma component_after t c : last_component t c -> c = after_last slash t.
Proof.
  intros [N [->|[d ->]]].
  - symmetry. apply after_last_no. exact N.
  - symmetry. apply after_last_split. exact N.
Qed.

Lemma after_last_app_no a b :
  ~ In slash b -> after_last slash (a ++ b) = after_last slash a ++ b.
Proof.
  intros N. destruct (in_dec ascii_dec slash a) as [I|I].
  - destruct (last_split slash a I) as (u & v & -> & M).
    rewrite (after_last_split slash u v M), <- app_assoc. cbn [app].
    apply after_last_split. intros J. apply in_app_or in J as [J|J]; contradiction.
  - rewrite (after_last_no slash a I). apply after_last_no.
    intros J. apply in_app_or in J as [J|J]; contradiction.
Qed.

Lemma after_last_app_in a b :
  In slash b -> after_last slash (a ++ b) = after_last slash b.
Proof.
  intros I. destruct (last_split slash b I) as (u & v & -> & M).
  rewrite app_assoc, !after_last_split by assumption. reflexivity.
Qed.

Lemma after_last_le c t : List.length (after_last c t) <= List.length t.
Proof. rewrite (after_last_upto c t) at 2. rewrite app_length. lia. Qed.

Lemma after_last_app_le a b :
  List.length (after_last slash (a ++ b)) <= List.length (after_last slash a) + List.length b.
Proof.
  destruct (in_dec ascii_dec slash b) as [I|I].
  - rewrite after_last_app_in by exact I. pose proof (after_last_le slash b). lia.
  - rewrite after_last_app_no by exact I. rewrite app_length. lia.
Qed.

Lemma filename_cases t :
  path_filename t = after_last slash t /\ after_last slash t <> [] \/
  after_last slash t = [] /\ List.length (path_filename t) <= 1.
Proof.
  unfold path_filename. destruct (after_last slash t) as [|c b] eqn:E.
  - right. split; [reflexivity|].
    destruct (existsb _ t); [cbn; lia|]. destruct t; cbn; lia.
  - left. split; [reflexivity|discriminate].
Qed.

Lemma filename_ge t : List.length (after_last slash t) <= List.length (path_filename t).
Proof.
  destruct (filename_cases t) as [[-> _]|[-> _]]; cbn [List.length]; lia.
Qed.

Lemma join_after d b : ~ In slash b -> b <> [] -> after_last slash (path_join d b) = b.
Proof.
  intros N H. unfold path_join. destruct (rev d) as [|c r] eqn:R.
  - apply after_last_no; exact N.
  - assert (D : d = rev r ++ [c]).
    { rewrite <- (rev_involutive d), R. reflexivity. }
    destruct (Ascii.eqb_spec slash c) as [Hc|Hc]; [subst c|].
    + rewrite D, <- app_assoc. cbn [app]. apply after_last_split. exact N.
    + cbn [app]. apply after_last_split. exact N.
Qed.

(** The capped prefix has a short last component. *)
Lemma cap_base p r :
  r <= 239 -> List.length (path_filename (capPrefixBase p r)) <= g_name_budget - r.
Proof.
  intros Hr. unfold capPrefixBase. destruct (str_eqb p []) eqn:E.
  - apply str_eqb_spec in E. subst p. cbn. lia.
  - unfold g_name_budget. replace (r <? 240) with true by (symmetry; apply Nat.ltb_lt; lia).
    destruct (Nat.leb_spec (List.length (path_filename p)) (240 - r)) as [L|L]; [exact L|].
    destruct (filename_cases p) as [[F N]|[F N]]; [|lia].
    rewrite F in *.
    set (b := firstn (240 - r) (after_last slash p)).
    assert (Nb : ~ In slash b).
    { intros I. apply (after_last_no_In slash p). subst b.
      rewrite <- (firstn_skipn (240 - r) (after_last slash p)). apply in_or_app. left. exact I. }
    assert (Lb : List.length b = 240 - r) by (subst b; rewrite firstn_length; lia).
    assert (Hb : b <> []) by (intros X; rewrite X in Lb; cbn [List.length] in Lb; lia).
    assert (J : forall d, List.length (path_filename (path_join d b)) <= 240 - r).
    { intros d. unfold path_filename. rewrite join_after by assumption.
      destruct b; [congruence|]. cbn [List.length] in *. lia. }
    destruct (path_parent p) as [|c d]; [exact (J [])|exact (J (c :: d))].
Qed.

Lemma cap_id p r :
  r <= 239 -> List.length (path_filename p) <= g_name_budget - r -> capPrefixBase p r = p.
Proof.
  unfold g_name_budget.
  intros Hr H. unfold capPrefixBase. destruct (str_eqb p []); [reflexivity|].
  unfold g_name_budget. replace (r <? 240) with true by (symmetry; apply Nat.ltb_lt; lia).
  apply Nat.leb_le in H. rewrite H. reflexivity.
Qed.

Definition ext_len (b : bool) : nat := List.length (match_ext b).

Lemma ext_le b : ext_len b <= 6.
Proof. destruct b; cbn; lia. Qed.

Definition mprefix (p : str) (pt : bool) : str := capPrefixBase p (35 + ext_len pt).

(** The room for each of the two image names. *)
Definition mcap (p : str) (pt : bool) : nat :=
  let q := mprefix p pt in
  (240 - (List.length (path_filename q) + 2 + ext_len pt + if str_eqb q [] then 0 else 1)) / 2.

Lemma mprefix_base p pt : List.length (path_filename (mprefix p pt)) + (35 + ext_len pt) <= 240.
Proof.
  pose proof (ext_le pt). pose proof (cap_base p (35 + ext_len pt)) as H1.
  unfold mprefix, g_name_budget in *. lia.
Qed.

Lemma mcap_ge p pt : 16 <= mcap p pt.
Proof.
  unfold mcap. pose proof (mprefix_base p pt).
  apply Nat.div_le_lower_bound; [lia|]. destruct (str_eqb _ []); lia.
Qed.

Lemma match_filename_eq p f1 f2 pt :
  match_filename p f1 f2 pt =
  (if str_eqb (mprefix p pt) [] then [] else mprefix p pt ++ lit "-") ++
  shortenName (strip_path p f1) (mcap p pt) ++ lit "__" ++
  shortenName (strip_path p f2) (mcap p pt) ++ match_ext pt.
Proof.
  unfold match_filename.
  replace (1 + 2 + List.length (match_ext pt) + 2 * 16) with (35 + ext_len pt)
    by (unfold ext_len; lia).
  fold (mprefix p pt).
  pose proof (mprefix_base p pt) as B.
  set (q := mprefix p pt) in *.
  assert (C : (if (if negb (str_eqb q []) then List.length (path_filename q) + 2 + List.length (match_ext pt) + 1
                   else List.length (path_filename q) + 2 + List.length (match_ext pt)) + 2 <? g_name_budget
               then (g_name_budget - (if negb (str_eqb q []) then List.length (path_filename q) + 2 + List.length (match_ext pt) + 1
                   else List.length (path_filename q) + 2 + List.length (match_ext pt))) / 2 else 16)
              = mcap p pt).
  { unfold mcap. fold q. fold (ext_len pt). unfold g_name_budget.
    destruct (str_eqb q []); cbn [negb].
    - rewrite Nat.add_0_r.
      replace (_ <? 240) with true by (symmetry; apply Nat.ltb_lt; lia). reflexivity.
    - replace (_ <? 240) with true by (symmetry; apply Nat.ltb_lt; lia). reflexivity. }
  cbv zeta. rewrite C. destruct (str_eqb q []); [reflexivity|].
  rewrite <- !app_assoc. reflexivity.
Qed.

Lemma match_fits p f1 f2 pt c :
  last_component (match_filename p f1 f2 pt) c -> List.length c <= 240.
Proof.
  intros H. apply component_after in H. subst c. rewrite match_filename_eq.
  pose proof (mprefix_base p pt) as B. pose proof (filename_ge (mprefix p pt)) as F.
  pose proof (shorten_length (strip_path p f1) (mcap p pt)) as S1.
  pose proof (shorten_length (strip_path p f2) (mcap p pt)) as S2.
  assert (M : 2 * mcap p pt + List.length (path_filename (mprefix p pt)) + 2 + ext_len pt
              + (if str_eqb (mprefix p pt) [] then 0 else 1) <= 240).
  { unfold mcap.
    match goal with |- context [(240 - ?a) / 2] =>
      pose proof (Nat.mul_div_le (240 - a) 2) as D end.
    destruct (str_eqb _ []); lia. }
  destruct (str_eqb (mprefix p pt) []) eqn:E.
  - cbn [app]. eapply Nat.le_trans; [apply after_last_le|].
    rewrite !app_length. fold (ext_len pt). cbn [lit list_ascii_of_string List.length]. lia.
  - rewrite <- app_assoc. eapply Nat.le_trans; [apply after_last_app_le|].
    rewrite !app_length. fold (ext_len pt). cbn [lit list_ascii_of_string List.length]. lia.
Qed.

Lemma ip_fits p f c :
  last_component (ip_filename p f) c -> List.length c <= 240.
Proof.
  intros H. apply component_after in H. subst c. unfold ip_filename. cbv zeta.
  change (1 + 5 + 16) with 22.
  pose proof (cap_base p 22) as B. unfold g_name_budget in *.
  pose proof (filename_ge (capPrefixBase p 22)) as F.
  replace (_ <? 240) with true by (symmetry; apply Nat.ltb_lt; lia).
  eapply Nat.le_trans; [apply after_last_app_le|].
  rewrite !app_length.
  match goal with |- context [shortenName ?t ?m] => pose proof (shorten_length t m) end.
  cbn [lit list_ascii_of_string List.length]. lia.
Qed.

Lemma vwip_fits t c :
  last_component (shorten_vwip_name t) c -> List.length c <= 240.
Proof.
  intros H. apply component_after in H. subst c. unfold shorten_vwip_name. cbv zeta.
  change (if 5 <? g_name_budget then g_name_budget - 5 else 1) with 235.
  pose proof (shorten_length (path_filename t) 235) as S.
  set (n := shortenName _ _ ++ lit ".vwip").
  assert (L : List.length n <= 240).
  { subst n. rewrite app_length. cbn [lit list_ascii_of_string List.length]. lia. }
  destruct (path_parent t) as [|x d]; [eapply Nat.le_trans; [apply after_last_le|exact L]|].
  unfold path_join. destruct (rev (x :: d)) as [|y r] eqn:R.
  - eapply Nat.le_trans; [apply after_last_le|exact L].
  - destruct (Ascii.eqb slash y) eqn:Y.
    + apply Ascii.eqb_eq in Y. subst y.
      assert (D : x :: d = rev r ++ [slash]) by (rewrite <- (rev_involutive (x :: d)), R; reflexivity).
      rewrite D.
      eapply Nat.le_trans; [apply after_last_app_le|].
      rewrite after_last_split by (intros []). cbn [List.length]. exact L.
    + rewrite app_assoc. eapply Nat.le_trans; [apply after_last_app_le|].
      change [slash] with (slash :: @nil ascii).
      rewrite after_last_split by (intros []). cbn [List.length]. exact L.
Qed.

(** ** The name of an image *)

Lemma before_dot_no t : ~ In dot t -> before_dot t = t.
Proof. intros N. unfold before_dot. apply existsb_not_In in N. rewrite N. reflexivity. Qed.

Lemma before_dot_split a e : ~ In dot e -> before_dot (a ++ dot :: e) = a.
Proof.
  intros N. unfold before_dot.
  replace (existsb (Ascii.eqb dot) (a ++ dot :: e)) with true
    by (symmetry; apply existsb_In, in_or_app; right; left; reflexivity).
  rewrite after_last_split by exact N. rewrite app_length. cbn [List.length].
  replace (List.length a + S (List.length e) - List.length e - 1) with (List.length a) by lia.
  rewrite firstn_app, firstn_all, Nat.sub_diag. cbn [firstn]. apply app_nil_r.
Qed.

Lemma filename_component t c : last_component t c -> c <> [] -> path_filename t = c.
Proof.
  intros H N. apply component_after in H. unfold path_filename.
  rewrite <- H. destruct c; [congruence|reflexivity].
Qed.

Lemma strip_path_name p f n :
  not_within (p ++ lit "-") f \/ p = [] -> image_name f n -> strip_path p f = n.
Proof.
  intros W (c & C & N & H).
  assert (E : strip_path p f = before_dot (path_filename f)).
  { unfold strip_path. destruct (sfind (p ++ lit "-") f) as [k|] eqn:F; [|reflexivity].
    destruct W as [W| ->]; [|reflexivity].
    apply sfind_some in F as (a & b & E & _). exfalso. exact (W a b E). }
  rewrite E, (filename_component f c C N).
  destruct H as [[D ->]|(e & D & ->)].
  - apply before_dot_no. exact D.
  - apply before_dot_split. exact D.
Qed.

(** An image inside the output directory: the prefix is taken off. *)
Lemma strip_path_prefixed p f n :
  p <> [] -> image_name f n -> ~ In "/"%char f ->
  strip_path p (p ++ lit "-" ++ f) = n.
Proof.
  intros P I NF. unfold strip_path.
  assert (S : sfind (p ++ lit "-") (p ++ lit "-" ++ f) = Some 0).
  { rewrite app_assoc.
    assert (X : starts (p ++ lit "-") ((p ++ lit "-") ++ f) = true)
      by (apply starts_spec; exists f; reflexivity).
    destruct ((p ++ lit "-") ++ f); cbn [sfind]; rewrite X; reflexivity. }
  rewrite S. replace (str_eqb p []) with false by (symmetry; apply str_eqb_false; exact P).
  cbn [negb]. unfold erase. cbn [firstn app Nat.add].
  rewrite app_assoc, skipn_app, skipn_all, Nat.sub_diag. cbn [skipn app].
  destruct I as (c & C & N & H). rewrite (filename_component f c C N).
  destruct H as [[D ->]|(e & D & ->)].
  - apply before_dot_no. exact D.
  - apply before_dot_split. exact D.
Qed.

(** ** Distinct names *)

Lemma app_eq_split {A} (a b c d : list A) :
  a ++ b = c ++ d -> List.length a <= List.length c ->
  exists t, c = a ++ t /\ b = t ++ d.
Proof.
  revert c; induction a as [|x a IH]; intros c E L.
  - exists c. split; [reflexivity|exact E].
  - destruct c as [|y c]; cbn [List.length] in L; [lia|].
    cbn [app] in E. injection E as <- E. destruct (IH c E) as (t & -> & ->); [lia|].
    exists t. split; reflexivity.
Qed.

Lemma app_same_length {A} (a b c d : list A) :
  a ++ b = c ++ d -> List.length a = List.length c -> a = c /\ b = d.
Proof.
  intros E L. destruct (app_eq_split a b c d E) as (t & -> & ->); [lia|].
  rewrite app_length in L. destruct t; cbn [List.length] in L; [|lia].
  rewrite app_nil_r. auto.
Qed.

Lemma separated_le a b c d :
  not_within (lit "__") (c ++ lit "_") ->
  a ++ lit "__" ++ b = c ++ lit "__" ++ d ->
  List.length a <= List.length c -> a = c /\ b = d.
Proof.
  intros N E L. destruct (app_eq_split _ _ _ _ E L) as (t & -> & F).
  destruct t as [|x t].
  - rewrite app_nil_r. cbn [app] in F. change (lit "__") with ["_"; "_"]%char in F.
    cbn [app] in F. injection F as ->. auto.
  - exfalso. change (lit "__") with ["_"; "_"]%char in *.
    change (lit "_") with ["_"]%char in N. cbn [app] in F. injection F as <- F.
    destruct t as [|y t].
    + apply (N a []). rewrite <- app_assoc. reflexivity.
    + cbn [app] in F. injection F as <- F.
      apply (N a (t ++ ["_"%char])). rewrite <- app_assoc. reflexivity.
Qed.

Lemma separated a b c d :
  not_within (lit "__") (a ++ lit "_") ->
  not_within (lit "__") (c ++ lit "_") ->
  a ++ lit "__" ++ b = c ++ lit "__" ++ d -> a = c /\ b = d.
Proof.
  intros Na Nc E. destruct (Nat.le_gt_cases (List.length a) (List.length c)) as [L|L].
  - exact (separated_le a b c d Nc E L).
  - destruct (separated_le c d a b Na (eq_sym E)) as [-> ->]; [lia|auto].
Qed.

Lemma match_eq_names p f1 f2 g1 g2 pt :
  match_filename p f1 f2 pt = match_filename p g1 g2 pt ->
  shortenName (strip_path p f1) (mcap p pt) ++ lit "__" ++ shortenName (strip_path p f2) (mcap p pt) =
  shortenName (strip_path p g1) (mcap p pt) ++ lit "__" ++ shortenName (strip_path p g2) (mcap p pt).
Proof.
  rewrite !match_filename_eq. intros E. apply app_inv_head in E.
  apply (app_inv_tail (match_ext pt)). rewrite <- !app_assoc. exact E.
Qed.

Lemma shorten_long t m :
  16 <= m < List.length t ->
  exists l, shortenName t m = l ++ fnv1a64Hex t /\
            List.length (shortenName t m) = if m <=? 17 then 16 else m.
Proof.
  intros H. unfold shortenName.
  replace (List.length t <=? m) with false by (symmetry; apply Nat.leb_gt; lia).
  rewrite hash_length. change (16 + 1) with 17.
  destruct (Nat.leb_spec m 17) as [M|M].
  - replace (m <? 16) with false by (symmetry; apply Nat.ltb_ge; lia).
    exists []. cbn [app]. rewrite <- (hash_length t) at 1. rewrite firstn_all.
    split; [reflexivity|].
    rewrite <- (hash_length t) at 1. rewrite firstn_all. apply hash_length.
  - exists (firstn (m - 16 - 1) t ++ lit "_"). rewrite <- app_assoc. split; [reflexivity|].
    rewrite !app_length, hash_length, firstn_length. cbn [lit list_ascii_of_string List.length]. lia.
Qed.

Lemma hex_digit_inj a b :
  (0 <= a < 16)%Z -> (0 <= b < 16)%Z -> hex_digit a = hex_digit b -> a = b.
Proof.
  intros Ha Hb.
  assert (A : exists n, n < 16 /\ a = Z.of_nat n) by (exists (Z.to_nat a); lia).
  assert (B : exists n, n < 16 /\ b = Z.of_nat n) by (exists (Z.to_nat b); lia).
  destruct A as (n & Hn & ->), B as (m & Hm & ->).
  unfold hex_digit. rewrite !Nat2Z.id. intros E.
  f_equal.
  assert (ND : NoDup (lit "0123456789abcdef")).
  { cbn [lit list_ascii_of_string].
    repeat (constructor; [cbn [In]; intuition discriminate|]). constructor. }
  exact (proj1 (NoDup_nth _ "0"%char) ND n m Hn Hm E).
Qed.

Lemma hex_inj k : forall a b,
  (0 <= a < 16 ^ Z.of_nat k)%Z -> (0 <= b < 16 ^ Z.of_nat k)%Z ->
  hex k a = hex k b -> a = b.
Proof.
  induction k as [|k IH]; intros a b Ha Hb E.
  - cbn in Ha, Hb. lia.
  - cbn [hex] in E. apply app_inj_tail in E as [E D].
    rewrite Nat2Z.inj_succ, Z.pow_succ_r in Ha, Hb by lia.
    apply IH in E.
    + apply hex_digit_inj in D; try (apply Z.mod_pos_bound; lia).
      rewrite (Z.div_mod a 16), (Z.div_mod b 16) by lia. congruence.
    + split; [apply Z.div_pos; lia|apply Z.div_lt_upper_bound; lia].
    + split; [apply Z.div_pos; lia|apply Z.div_lt_upper_bound; lia].
Qed.

Lemma fnv_range t : (0 <= fnv1a64 t < 2 ^ 64)%Z.
Proof.
  unfold fnv1a64. rewrite <- (rev_involutive t).
  destruct (rev t) as [|c r].
  - cbn. lia.
  - cbn [rev]. rewrite fold_left_app. cbn [fold_left]. unfold fnv_step at 1.
    apply Z.mod_pos_bound. lia.
Qed.

Lemma hash_inj t u : fnv1a64Hex t = fnv1a64Hex u -> fnv1a64 t = fnv1a64 u.
Proof.
  intros E. unfold fnv1a64Hex in E.
  apply (hex_inj 16); [exact (fnv_range t)|exact (fnv_range u)|exact E].
Qed.

Lemma shorten_long_eq t u m :
  16 <= m -> m < List.length t -> m < List.length u ->
  shortenName t m = shortenName u m -> fnv1a64 t = fnv1a64 u.
Proof.
  intros Hm Ht Hu E.
  destruct (shorten_long t m) as (l & El & _); [lia|].
  destruct (shorten_long u m) as (l' & El' & _); [lia|].
  rewrite El, El' in E. apply hash_inj.
  assert (X : rev (fnv1a64Hex t) ++ rev l = rev (fnv1a64Hex u) ++ rev l')
    by (rewrite <- !rev_app_distr, E; reflexivity).
  apply app_same_length in X as [X _]; [|rewrite !rev_length, !hash_length; reflexivity].
  rewrite <- (rev_involutive (fnv1a64Hex t)), X, rev_involutive. reflexivity.
Qed.

(** ** Clean names *)

Lemma drop_ext_match t e :
  ~ In dot e -> ~ In slash e -> e <> [] -> drop_extension (t ++ dot :: e) = t.
Proof.
  intros D NS N. unfold drop_extension.
  assert (B : after_last slash (t ++ dot :: e) = after_last slash t ++ dot :: e).
  { apply after_last_app_no. intros [X|X]; [discriminate|contradiction]. }
  rewrite B.
  replace (existsb (Ascii.eqb dot) (after_last slash t ++ dot :: e)) with true
    by (symmetry; apply existsb_In, in_or_app; right; left; reflexivity).
  destruct (str_eqb _ (lit ".")) eqn:E1.
  { apply str_eqb_spec in E1. exfalso.
    destruct (after_last slash t) as [|x [|y r]]; destruct e; cbn in E1; congruence. }
  destruct (str_eqb _ (lit "..")) eqn:E2.
  { apply str_eqb_spec in E2. exfalso.
    destruct (after_last slash t) as [|x r].
    - destruct e as [|z e]; [congruence|]. cbn in E2. injection E2 as -> _.
      apply D. left. reflexivity.
    - destruct r as [|y r]; cbn in E2.
      + destruct e; [congruence|discriminate].
      + destruct r; discriminate. }
  cbn [andb negb]. rewrite after_last_split by exact D.
  rewrite app_length. cbn [List.length].
  replace (List.length t + S (List.length e) - List.length e - 1) with (List.length t) by lia.
  rewrite firstn_app, firstn_all, Nat.sub_diag. cbn [firstn]. apply app_nil_r.
Qed.

Lemma clean_eq p f1 f2 pt :
  exists body, match_filename p f1 f2 pt = body ++ match_ext pt /\
    clean_match_filename (match_filename p f1 f2 pt) pt = body ++ lit "-clean" ++ match_ext pt.
Proof.
  rewrite match_filename_eq. rewrite !app_assoc.
  match goal with |- exists body, ?b ++ match_ext pt = _ /\ _ => exists b end.
  split; [reflexivity|]. unfold clean_match_filename.
  destruct pt; cbn [match_ext].
  - change (lit ".txt") with (dot :: lit "txt").
    rewrite drop_ext_match; [reflexivity| | |discriminate];
      cbn [lit list_ascii_of_string In]; intuition discriminate.
  - change (lit ".match") with (dot :: lit "match").
    rewrite drop_ext_match; [reflexivity| | |discriminate];
      cbn [lit list_ascii_of_string In]; intuition discriminate.
Qed.

Lemma short_for_cap p n pt : short_for p n -> List.length n <= mcap p pt.
Proof.
  intros [H|(b & B & L & H)].
  - pose proof (mcap_ge p pt). lia.
  - apply component_after in B. subst b.
    pose proof (ext_le pt) as X.
    assert (F : List.length (path_filename p) <= S (List.length (after_last slash p)) /\
                List.length (path_filename p) <= 199).
    { destruct (filename_cases p) as [[E _]|[E N]]; [rewrite E; lia|lia]. }
    assert (M : mprefix p pt = p).
    { unfold mprefix. apply cap_id; unfold g_name_budget; lia. }
    unfold mcap. rewrite M.
    apply Nat.div_le_lower_bound; [lia|].
    destruct (filename_cases p) as [[E _]|[E N]].
    + rewrite E in *. destruct (str_eqb p []); lia.
    + rewrite E in *. cbn [List.length] in *. destruct (str_eqb p []); lia.
Qed.
