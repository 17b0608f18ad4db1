From Coq Require Import ZArith List Lia Bool.
From Verif Require Import Lib.Base Exif.Model Exif.Spec.
Import ListNotations.
Local Open Scope Z_scope.

(** ** reading *)
Lemma at_cons m p x l : at_ m p (x :: l) -> byte m p = Ok x /\ at_ m (p + 1) l.
Proof.
  intros (a & b & -> & E). split.
  - unfold byte. rewrite !app_length. cbn [length].
    destruct (Z.leb_spec 0 p), (Z.ltb_spec p (Z.of_nat (length a + (S (length l) + length b)))); cbn [andb]; try lia.
    f_equal. rewrite app_nth2 by lia. replace (Z.to_nat p - length a)%nat with 0%nat by lia. reflexivity.
  - exists (a ++ [x]), b. rewrite <- app_assoc. split; [reflexivity|]. rewrite app_length. cbn [length]. lia.
Qed.
Lemma at_app m p a b : at_ m p (a ++ b) -> at_ m p a /\ at_ m (p + Z.of_nat (length a)) b.
Proof.
  intros (u & v & -> & E). split.
  - exists u, (b ++ v). now rewrite <- app_assoc.
  - exists (u ++ a), v. rewrite <- !app_assoc. split; [reflexivity|]. rewrite app_length. lia.
Qed.
Lemma app_same {A} (a b c d : list A) : length a = length c -> a ++ b = c ++ d -> a = c.
Proof. revert c. induction a as [|x a IH]; intros [|y c] L E; cbn in *; try discriminate; auto. injection E as -> E. f_equal. apply IH; auto. Qed.
Lemma at_append m p a b : at_ m p a -> at_ m (p + Z.of_nat (length a)) b -> at_ m p (a ++ b).
Proof.
  intros (u & v & E & L) (u' & v' & E' & L'). exists u, v'. split; auto.
  rewrite E in E'. rewrite (app_assoc u a v) in E'. assert (LE : length (u ++ a) = length u') by (rewrite app_length; lia).
  rewrite E. rewrite (app_assoc u a v). rewrite E'.
  assert (u' = u ++ a).
  { symmetry. eapply app_same; eauto. }
  subst u'. now rewrite <- !app_assoc.
Qed.
Lemma at_pos m p l : at_ m p l -> 0 <= p /\ p + Z.of_nat (length l) <= Z.of_nat (length m).
Proof. intros (a & b & -> & <-). rewrite !app_length. lia. Qed.
Lemma copy_at m l : forall p, at_ m p l -> copy m p (length l) = Ok l.
Proof. induction l as [|x l IH]; intros p H; cbn [length copy]; auto. apply at_cons in H as [-> H]. cbn [bind]. now rewrite IH. Qed.

Lemma little_length k v : length (little k v) = k.
Proof. revert v. induction k; intros v; cbn [little length]; auto. Qed.
Lemma word_length mo k v : length (word mo k v) = k.
Proof. unfold word. destruct mo; rewrite ?rev_length; apply little_length. Qed.

Ltac divs := Z.div_mod_to_equations; lia.

Lemma get16u_word mo m p v : at_ m p (word mo 2 v) -> get16u mo m p = Ok (v mod 65536).
Proof.
  intros H. unfold word in H. destruct mo; cbn [little rev app] in H; apply at_cons in H as [E1 H]; apply at_cons in H as [E2 _];
    unfold get16u; rewrite E1; cbn [bind]; rewrite E2; cbn [bind]; f_equal; divs.
Qed.
Lemma get16u_at mo m p v : at_ m p (word mo 2 v) -> 0 <= v < 65536 -> get16u mo m p = Ok v.
Proof. intros H L. rewrite (get16u_word mo m p v H). f_equal. apply Z.mod_small. lia. Qed.

Lemma get32s_word mo m p v : at_ m p (word mo 4 v) -> get32s mo m p = Ok (if v mod 4294967296 >=? 2147483648 then v mod 4294967296 - 4294967296 else v mod 4294967296).
Proof.
  intros H. assert (X : forall v, schar ((v / 256 / 256 / 256) mod 256) * 16777216 + ((v / 256 / 256) mod 256) * 65536 + ((v / 256) mod 256) * 256 + v mod 256 =
    if v mod 4294967296 >=? 2147483648 then v mod 4294967296 - 4294967296 else v mod 4294967296).
  { clear. intros v. unfold schar. destruct (Z.geb_spec ((v / 256 / 256 / 256) mod 256) 128), (Z.geb_spec (v mod 4294967296) 2147483648); divs. }
  unfold word in H. destruct mo; cbn [little rev app] in H; apply at_cons in H as [E1 H]; apply at_cons in H as [E2 H]; apply at_cons in H as [E3 H]; apply at_cons in H as [E4 _];
    replace (p + 1 + 1) with (p + 2) in * by lia; replace (p + 2 + 1) with (p + 3) in * by lia;
    unfold get32s; rewrite E1; cbn [bind]; rewrite E2; cbn [bind]; rewrite E3; cbn [bind]; rewrite E4; cbn [bind]; f_equal; apply X.
Qed.
Lemma get32s_at mo m p v : at_ m p (word mo 4 v) -> int32 v -> get32s mo m p = Ok v.
Proof.
  intros H [L1 L2]. rewrite (get32s_word mo m p v H). f_equal. destruct (Z.geb_spec (v mod 4294967296) 2147483648); divs.
Qed.
Lemma get32u_at mo m p v : at_ m p (word mo 4 v) -> 0 <= v < 4294967296 -> get32u mo m p = Ok v.
Proof.
  intros H L. unfold get32u. rewrite (get32s_word mo m p v H). cbn [bind]. f_equal. rewrite (Z.mod_small v) by lia.
  destruct (Z.geb_spec v 2147483648); divs.
Qed.

(** ** one entry *)
Lemma readable_size mo d : readable mo d -> Z.of_nat (length (bytes_of mo d)) = count_of d * bytes_per (format_of d).
Proof.
  assert (FM : forall {A} (f : A -> list Z) k xs, (forall x, length (f x) = k) -> length (flat_map f xs) = (length xs * k)%nat).
  { intros A f k xs H. induction xs; cbn [flat_map length]; auto. rewrite app_length, H, IHxs. lia. }
  intros [_ R]. destruct d as [f xs|f xs|f s|f xs]; cbn [bytes_of count_of format_of].
  - destruct R as [NE F]. rewrite (FM _ _ (width f)) by (intros; apply word_length). destruct xs as [|x xs]; [contradiction|].
    apply Forall_inv in F. assert (B : Z.of_nat (width f) = bytes_per f) by (unfold fits in F; decompose [or and] F; subst f; reflexivity).
    rewrite Nat2Z.inj_mul, B. reflexivity.
  - destruct R as (_ & F & _). rewrite (FM _ _ 8%nat) by (intros [n d]; rewrite app_length, !word_length; reflexivity).
    rewrite Nat2Z.inj_mul. destruct F; subst f; reflexivity.
  - destruct R; subst f; [change (bytes_per 2) with 1|change (bytes_per 7) with 1]; rewrite Z.mul_1_r; reflexivity.
  - destruct R as (_ & F & _). rewrite (FM _ _ (width f)) by (intros; apply word_length).
    rewrite Nat2Z.inj_mul. destruct F; subst f; reflexivity.
Qed.
Lemma readable_format mo d : readable mo d -> 1 <= format_of d <= 12.
Proof.
  intros [_ R]. destruct d as [f xs|f xs|f s|f xs]; cbn [format_of].
  - destruct R as [NE F]. destruct xs; [contradiction|]. apply Forall_inv in F. unfold fits in F. lia.
  - lia. - lia. - lia.
Qed.

Lemma store_at mo m v tag d tags : readable mo d -> at_ m v (bytes_of mo d) ->
  store mo m v tag (format_of d) (count_of d * bytes_per (format_of d)) tags = Ok ((tag, value_of d) :: tags).
Proof.
  intros R H. rewrite <- (readable_size mo d R). destruct R as [_ R]. destruct d as [f xs|f xs|f s|f xs]; cbn [format_of value_of].
  - destruct R as [NE F]. destruct xs as [|x xs]; [contradiction|]. apply Forall_inv in F. cbn [bytes_of flat_map] in H. apply at_app in H as [H _].
    unfold fits in F. decompose [or and] F; subst f; cbn [width Z.eqb orb Pos.eqb] in H; unfold store, convert_any_format; cbn [Z.eqb orb Pos.eqb ASCII UNDEFINED UBYTE USHORT ULONG SBYTE SSHORT SLONG URATIONAL SRATIONAL].
    + assert (H' : at_ m v [x]). { unfold word in H. cbn [little rev app] in H. rewrite Z.mod_small in H by lia. destruct mo; exact H. }
      apply at_cons in H' as [-> _]. cbn [bind int_of]. destruct (Z.leb_spec (-2147483648) x), (Z.leb_spec x 2147483647); cbn [andb bind]; auto; lia.
    + rewrite (get16u_at mo m v x) by (auto; lia). cbn [bind int_of]. destruct (Z.leb_spec (-2147483648) x), (Z.leb_spec x 2147483647); cbn [andb bind]; auto; lia.
    + rewrite (get32u_at mo m v x) by (auto; lia). cbn [bind int_of]. destruct (Z.leb_spec (-2147483648) x), (Z.leb_spec x 2147483647); cbn [andb bind]; auto; lia.
    + assert (H' : at_ m v [x mod 256]). { unfold word in H. cbn [little rev app] in H. destruct mo; exact H. }
      apply at_cons in H' as [-> _]. cbn [bind int_of]. replace (schar (x mod 256)) with x.
      * destruct (Z.leb_spec (-2147483648) x), (Z.leb_spec x 2147483647); cbn [andb bind]; auto; lia.
      * unfold schar. destruct (Z.geb_spec (x mod 256) 128); divs.
    + assert (X : (if x mod 65536 >=? 32768 then x mod 65536 - 65536 else x mod 65536) = x) by (destruct (Z.geb_spec (x mod 65536) 32768); divs).
      rewrite (get16u_word mo m v x) by auto. cbn [bind]. rewrite X. cbn [bind int_of].
      destruct (Z.leb_spec (-2147483648) x), (Z.leb_spec x 2147483647); cbn [andb bind]; auto; lia.
    + match goal with I : int32 x |- _ => rewrite (get32s_at mo m v x H I); destruct I end. cbn [bind int_of].
      destruct (Z.leb_spec (-2147483648) x), (Z.leb_spec x 2147483647); cbn [andb bind]; auto; lia.
  - destruct R as (NE & Ff & F). destruct xs as [|[n d] xs]; [contradiction|]. apply Forall_inv in F. destruct F as [I1 I2]. cbn [bytes_of flat_map] in H.
    apply at_app in H as [H _]. apply at_app in H as [H1 H2]. rewrite word_length in H2.
    destruct Ff; subst f; unfold store, convert_any_format; cbn [Z.eqb orb Pos.eqb ASCII UNDEFINED UBYTE USHORT ULONG SBYTE SSHORT SLONG URATIONAL SRATIONAL];
      rewrite (get32s_at mo m v n H1 I1); cbn [bind]; rewrite (get32s_at mo m (v + 4) d H2 I2); cbn [bind]; destruct (d =? 0); reflexivity.
  - destruct R; subst f; unfold store; cbn [Z.eqb orb Pos.eqb ASCII UNDEFINED]; rewrite Nat2Z.id; cbn [bytes_of] in *; rewrite copy_at by auto; reflexivity.
  - destruct R as (NE & Ff & ->). destruct xs as [|x xs]; [contradiction|]. cbn [bytes_of flat_map] in H. apply at_app in H as [H _]. unfold word in H.
    destruct Ff; subst f; unfold store, convert_any_format; cbn [Z.eqb orb Pos.eqb ASCII UNDEFINED UBYTE USHORT ULONG SBYTE SSHORT SLONG URATIONAL SRATIONAL SINGLE DOUBLE].
    + change (width 11) with 4%nat in *. rewrite (copy_at m (little 4 x)) by auto. reflexivity.
    + change (width 12) with 8%nat in *. rewrite (copy_at m (little 8 x)) by auto. reflexivity.
Qed.

Lemma is_link_spec tag : is_link tag = true <-> link tag.
Proof. unfold is_link, link. rewrite orb_true_iff, !Z.eqb_eq. tauto. Qed.

Lemma entry_data_ok sub mo m base len p tag d tags : 0 <= len < 4294967296 -> entry_at mo m base len p tag d -> ~ link tag ->
  entry sub mo m base len p tags = Ok ((tag, value_of d) :: tags).
Proof.
  intros L (T & R & A & V) NL. apply at_app in A as [A1 A]. apply at_app in A as [A2 A3]. rewrite !word_length in *. change (Z.of_nat 2) with 2 in *.
  replace (p + 2 + 2) with (p + 4) in A3 by lia.
  pose proof (readable_format mo d R) as F. pose proof (readable_size mo d R) as Sz. pose proof R as [C _].
  assert (C0 : 0 <= count_of d) by (unfold count_of; lia).
  unfold entry. rewrite (get16u_at mo m p tag A1 T). cbn [bind]. rewrite (get16u_at mo m (p + 2) (format_of d) A2 ltac:(lia)). cbn [bind].
  rewrite (get32u_at mo m (p + 4) (count_of d) A3 ltac:(lia)). cbn [bind].
  destruct (Z.gtb_spec (format_of d) 12); [lia|]. destruct (Z.leb_spec (format_of d) 0); [lia|]. cbn [orb]. destruct (Z.gtb_spec (count_of d) 65536); [lia|].
  cbn zeta. cbn zeta in V. rewrite <- Sz.
  assert (NLb : is_link tag = false) by (destruct (is_link tag) eqn:E; auto; apply is_link_spec in E; contradiction).
  destruct (Nat.leb_spec (length (bytes_of mo d)) 4).
  - destruct (Z.gtb_spec (Z.of_nat (length (bytes_of mo d))) 4); [lia|]. cbn [bind]. rewrite Sz, store_at by auto. cbn [bind]. now rewrite NLb.
  - destruct (Z.gtb_spec (Z.of_nat (length (bytes_of mo d))) 4); [|lia]. destruct V as (o & O1 & O2 & V1 & V2).
    rewrite (get32u_at mo m (p + 8) o V1 ltac:(lia)). cbn [bind].
    destruct (Z.eq_dec (o + Z.of_nat (length (bytes_of mo d))) 4294967296); [lia|]. rewrite Z.mod_small by lia.
    destruct (Z.gtb_spec (o + Z.of_nat (length (bytes_of mo d))) len); [lia|]. cbn [bind]. rewrite Sz, store_at by auto. cbn [bind]. now rewrite NLb.
Qed.

Lemma entry_link_ok sub mo m base len p tag o tags : 0 <= len < 4294967296 -> link_at mo m len p tag o ->
  entry sub mo m base len p tags = sub (base + o) ((tag, TInt o) :: tags).
Proof.
  intros L (K & O1 & O2 & A). apply at_app in A as [A1 A]. apply at_app in A as [A2 A]. apply at_app in A as [A3 A4]. rewrite !word_length in *. change (Z.of_nat 2) with 2 in *. change (Z.of_nat 4) with 4 in *.
  replace (p + 2 + 2) with (p + 4) in * by lia. replace (p + 4 + 4) with (p + 8) in * by lia.
  assert (T : 0 <= tag < 65536) by (destruct K; lia).
  unfold entry. rewrite (get16u_at mo m p tag A1 T). cbn [bind]. rewrite (get16u_at mo m (p + 2) 4 A2 ltac:(lia)). cbn [bind].
  rewrite (get32u_at mo m (p + 4) 1 A3 ltac:(lia)). cbn [bind]. cbn [Z.gtb Z.leb Z.compare Pos.compare Pos.compare_cont orb].
  change (1 * bytes_per 4) with 4. cbn zeta. cbn [Z.gtb Z.compare Pos.compare Pos.compare_cont bind].
  unfold store, convert_any_format. cbn [Z.eqb orb Pos.eqb ASCII UNDEFINED UBYTE USHORT ULONG SBYTE SSHORT SLONG].
  rewrite (get32u_at mo m (p + 8) o A4 ltac:(lia)). cbn [bind int_of]. destruct (Z.leb_spec (-2147483648) o), (Z.leb_spec o 2147483647); cbn [andb bind]; try lia.
  assert (E : is_link tag = true) by (now apply is_link_spec). rewrite E. destruct (Z.gtb_spec o len); [lia|]. reflexivity.
Qed.

(** ** directories *)
Scheme dir_mind := Induction for dir_at Sort Prop with entries_mind := Induction for entries_at Sort Prop.
Combined Scheme dir_entries_mind from dir_mind, entries_mind.

Lemma loop_shift {S} (f : Z -> S -> res S) n : forall i k s, loop n (i + k) f s = loop n i (fun j => f (j + k)) s.
Proof.
  induction n as [|n IH]; intros i k s; cbn [loop]; auto. destruct (f (i + k) s); cbn [bind]; auto.
  replace (i + k + 1) with (i + 1 + k) by lia. apply IH.
Qed.
Lemma loop_ext {S} (f g : Z -> S -> res S) n : forall i s, (forall j s, i <= j -> f j s = g j s) -> loop n i f s = loop n i g s.
Proof.
  induction n as [|n IH]; intros i s H; cbn [loop]; auto. rewrite H by lia. destruct (g i s); cbn [bind]; auto. apply IH. intros j s' L. apply H. lia.
Qed.

Lemma dir_ok mo m base len : 0 <= len < 4294967296 ->
  (forall k p T, dir_at mo m base len k p T -> forall tags, process_exif_dir mo m base len k p tags = Ok (rev T ++ tags)) /\
  (forall k p n T, entries_at mo m base len k p n T -> forall tags,
     loop n 0 (fun de tags => entry (process_exif_dir mo m base len k) mo m base len (p + 12 * de) tags) tags = Ok (rev T ++ tags)).
Proof.
  intros L.
  assert (Go : forall k p n T, 0 <= n < 65536 -> at_ m p (word mo 2 n) ->
     (forall tags, loop (Z.to_nat n) 0 (fun de tags => entry (process_exif_dir mo m base len k) mo m base len (p + 2 + 12 * de) tags) tags = Ok (rev T ++ tags)) ->
     (p + 2 + 12 * n + 4 <= base + len \/ p + 2 + 12 * n = base + len \/ p + 2 + 12 * n + 2 = base + len) ->
     forall tags, process_exif_dir mo m base len (S k) p tags =
       (if p + 2 + 12 * n + 4 <=? base + len then
          o <- get32u mo m (p + 2 + 12 * n) ;;
          if o =? 0 then Ok (rev T ++ tags) else if o >? len then Ok (rev T ++ tags) else process_exif_dir mo m base len k (base + o) (rev T ++ tags)
        else Ok (rev T ++ tags))).
  { intros k p n T N A E D tags. cbn [process_exif_dir]. rewrite (get16u_at mo m p n A N). cbn [bind]. cbn zeta.
    replace ((p + 2 + 12 * n + 4 >? base + len) && negb ((p + 2 + 12 * n + 2 =? base + len) || (p + 2 + 12 * n =? base + len))) with false.
    2:{ symmetry. destruct (Z.gtb_spec (p + 2 + 12 * n + 4) (base + len)); auto. cbn [andb]. destruct (Z.eqb_spec (p + 2 + 12 * n + 2) (base + len)), (Z.eqb_spec (p + 2 + 12 * n) (base + len)); auto; lia. }
    unfold for_up. rewrite Z.sub_0_r. rewrite E. reflexivity. }
  apply (dir_entries_mind mo m base len
    (fun k p T _ => forall tags, process_exif_dir mo m base len k p tags = Ok (rev T ++ tags))
    (fun k p n T _ => forall tags, loop n 0 (fun de tags => entry (process_exif_dir mo m base len k) mo m base len (p + 12 * de) tags) tags = Ok (rev T ++ tags))).
  - intros k p n T N A _ IH B Z0 tags. rewrite (Go k p n T) by auto. destruct (Z.leb_spec (p + 2 + 12 * n + 4) (base + len)); [|lia].
    rewrite (get32u_at mo m _ 0 Z0 ltac:(lia)). reflexivity.
  - intros k p n T N A _ IH B tags. rewrite (Go k p n T) by (auto; lia). destruct (Z.leb_spec (p + 2 + 12 * n + 4) (base + len)); [lia|]. reflexivity.
  - intros k p n T o T' N A _ IH B Ao O _ IH' tags. rewrite (Go k p n T) by auto. destruct (Z.leb_spec (p + 2 + 12 * n + 4) (base + len)); [|lia].
    rewrite (get32u_at mo m _ o Ao ltac:(lia)). cbn [bind]. destruct (Z.eqb_spec o 0); [lia|]. destruct (Z.gtb_spec o len); [lia|].
    rewrite IH'. now rewrite rev_app_distr, <- app_assoc.
  - reflexivity.
  - intros k p n tag d T A NL _ IH tags. cbn [loop]. rewrite Z.mul_0_r, Z.add_0_r. rewrite (entry_data_ok _ mo m base len p tag d tags L A NL). cbn [bind].
    rewrite loop_shift. cbn [rev]. rewrite <- app_assoc. cbn [app]. rewrite <- (IH ((tag, value_of d) :: tags)).
    apply loop_ext. intros j s _. f_equal. lia.
  - intros k p n tag o T T' A _ IHd _ IH tags. cbn [loop]. rewrite Z.mul_0_r, Z.add_0_r. rewrite (entry_link_ok _ mo m base len p tag o tags L A), IHd. cbn [bind].
    rewrite loop_shift. cbn [rev]. rewrite rev_app_distr, <- !app_assoc. cbn [app]. rewrite <- (IH (rev T ++ (tag, TInt o) :: tags)).
    apply loop_ext. intros j s _. f_equal. lia.
Qed.

Lemma find_app t a b : find_tag t (a ++ b) = match find_tag t a with Some v => Some v | None => find_tag t b end.
Proof. induction a as [|[k v] a IH]; cbn [app find_tag]; auto. destruct (t =? k); auto. Qed.
Lemma find_last t T : find_tag t (rev T) = last_of t T.
Proof.
  induction T as [|[k v] T IH]; cbn [rev last_of]; auto. rewrite find_app, IH. destruct (last_of t T); auto. cbn [find_tag]. rewrite Z.eqb_sym. reflexivity.
Qed.
