(** Theorems C135: the Python string and auditory functions. *)
From Verif Require Import PyTextModel PyTextSpec StringProps.
From Coq Require Import Reals Lra.
From Verif Require Import ConvProps AlgSpec AlgProps.
Local Open Scope Z_scope.

(** *** UTF-8 *)
Definition high (b : Z) : Prop := -128 <= b < -1.
Lemma encodable_iff c : encodable c = true <-> 0 <= c < 55296 \/ 57344 <= c < 1114112.
Proof. unfold encodable. rewrite orb_true_iff, !andb_true_iff, !Z.leb_le, !Z.ltb_lt. tauto. Qed.
Lemma to_string_text s : text s -> to_string s = Some (flat_map utf8 s).
Proof.
  intros T. unfold to_string. replace (forallb encodable s) with true; auto. symmetry. apply forallb_forall. intros c Hc. apply encodable_iff. unfold text in T. rewrite Forall_forall in T. auto.
Qed.
Lemma to_string_bad s : ~ text s -> to_string s = None.
Proof.
  intros T. unfold to_string. destruct (forallb encodable s) eqn:E; auto. exfalso. apply T. apply Forall_forall. intros c Hc. apply encodable_iff. rewrite forallb_forall in E. auto.
Qed.
Lemma utf8_ascii c : ascii c -> utf8 c = [c].
Proof.
  unfold ascii, utf8. intros H. destruct (Z.ltb_spec c 128); [|lia]. cbn [map]. unfold as_char. destruct (Z.ltb_spec c 128); [auto|lia].
Qed.
Lemma as_char_high b : 128 <= b < 255 -> high (as_char b) /\ of_char (as_char b) = b.
Proof. intros H. unfold high, as_char, of_char. destruct (Z.ltb_spec b 128); [lia|]. destruct (Z.ltb_spec (b - 256) 0); lia. Qed.
Lemma utf8_high c : 128 <= c < 1114112 -> Forall high (utf8 c) /\ utf8 c <> [].
Proof.
  intros H. unfold utf8. destruct (Z.ltb_spec c 128); [lia|].
  destruct (Z.ltb_spec c 2048); [|destruct (Z.ltb_spec c 65536)]; (split; [|discriminate]); cbn [map]; repeat constructor; apply as_char_high; Z.div_mod_to_equations; lia.
Qed.
Lemma from_utf8 c t : encodable c = true -> from_bytes (map of_char (utf8 c) ++ t) = match from_bytes t with Some l => Some (c :: l) | None => None end.
Proof.
  intros E. pose proof (proj1 (encodable_iff c) E) as H. assert (P : forall lo r, lo <= c -> push lo c r = match r with Some l => Some (c :: l) | None => None end).
  { intros lo r L. unfold push. rewrite E. destruct (Z.leb_spec lo c); [reflexivity|lia]. }
  unfold utf8. destruct (Z.ltb_spec c 128) as [L|L].
  - cbn [map app]. replace (of_char (as_char c)) with c by (unfold of_char, as_char; destruct (Z.ltb_spec c 128); [|lia]; destruct (Z.ltb_spec c 0); lia).
    cbn [from_bytes]. destruct (Z.ltb_spec c 128); [|lia]. apply P. lia.
  - assert (B : forall b, 128 <= b < 255 -> of_char (as_char b) = b) by (intros; apply as_char_high; auto).
    assert (C : forall x, cont (128 + x mod 64) = true) by (intros x; unfold cont; rewrite andb_true_iff, Z.leb_le, Z.ltb_lt; Z.div_mod_to_equations; lia).
    assert (M : forall x, 128 <= 128 + x mod 64 < 255) by (intros x; Z.div_mod_to_equations; lia).
    destruct (Z.ltb_spec c 2048) as [L2|L2]; [|destruct (Z.ltb_spec c 65536) as [L3|L3]].
    + assert (0 <= c / 64 < 32) by (Z.div_mod_to_equations; lia). cbn [map app]. rewrite !B by (auto; lia). cbn [from_bytes].
      destruct (Z.ltb_spec (192 + c / 64) 128); [lia|]. destruct (Z.leb_spec 192 (192 + c / 64)); [|lia]. destruct (Z.ltb_spec (192 + c / 64) 224); [|lia]. cbn [andb]. rewrite C.
      replace ((192 + c / 64 - 192) * 64 + (128 + c mod 64 - 128)) with c by (Z.div_mod_to_equations; lia). apply P. lia.
    + assert (0 <= c / 4096 < 16) by (Z.div_mod_to_equations; lia). cbn [map app]. rewrite !B by (auto; lia). cbn [from_bytes].
      destruct (Z.ltb_spec (224 + c / 4096) 128); [lia|]. destruct (Z.leb_spec 192 (224 + c / 4096)); [|lia]. destruct (Z.ltb_spec (224 + c / 4096) 224); [lia|]. cbn [andb].
      destruct (Z.leb_spec 224 (224 + c / 4096)); [|lia]. destruct (Z.ltb_spec (224 + c / 4096) 240); [|lia]. cbn [andb]. rewrite !C. cbn [andb].
      replace ((224 + c / 4096 - 224) * 4096 + (128 + (c / 64) mod 64 - 128) * 64 + (128 + c mod 64 - 128)) with c; [apply P; lia|].
      replace (c / 4096) with (c / 64 / 64) by (rewrite Z.div_div by lia; reflexivity). Z.div_mod_to_equations; lia.
    + assert (0 <= c / 262144 < 5) by (Z.div_mod_to_equations; lia). cbn [map app]. rewrite !B by (auto; lia). cbn [from_bytes].
      destruct (Z.ltb_spec (240 + c / 262144) 128); [lia|]. destruct (Z.leb_spec 192 (240 + c / 262144)); [|lia]. destruct (Z.ltb_spec (240 + c / 262144) 224); [lia|]. cbn [andb].
      destruct (Z.leb_spec 224 (240 + c / 262144)); [|lia]. destruct (Z.ltb_spec (240 + c / 262144) 240); [lia|]. cbn [andb].
      destruct (Z.leb_spec 240 (240 + c / 262144)); [|lia]. destruct (Z.ltb_spec (240 + c / 262144) 248); [|lia]. cbn [andb]. rewrite !C. cbn [andb].
      replace ((240 + c / 262144 - 240) * 262144 + (128 + (c / 4096) mod 64 - 128) * 4096 + (128 + (c / 64) mod 64 - 128) * 64 + (128 + c mod 64 - 128)) with c; [apply P; lia|].
      replace (c / 262144) with (c / 64 / 64 / 64) by (rewrite !Z.div_div by lia; reflexivity). replace (c / 4096) with (c / 64 / 64) by (rewrite Z.div_div by lia; reflexivity). Z.div_mod_to_equations; lia.
Qed.
Lemma from_string_text s : text s -> from_string (flat_map utf8 s) = Some s.
Proof.
  unfold from_string. induction 1 as [|c s Hc _ IH]; [reflexivity|]. cbn [flat_map]. rewrite map_app, from_utf8 by (apply encodable_iff; auto). rewrite IH. reflexivity.
Qed.
Lemma text_app a b : text (a ++ b) <-> text a /\ text b.
Proof. apply Forall_app. Qed.
Lemma point_cases c : 0 <= c < 55296 \/ 57344 <= c < 1114112 -> ascii c \/ 128 <= c < 1114112.
Proof. unfold ascii. lia. Qed.
Lemma in_utf8 d s : text s -> ascii d -> In d (flat_map utf8 s) -> In d s.
Proof.
  intros T A. rewrite in_flat_map. intros [c [Hc Hd]]. unfold text in T. rewrite Forall_forall in T. destruct (point_cases c (T c Hc)) as [C|C].
  - rewrite utf8_ascii in Hd by auto. destruct Hd as [->|[]]. auto.
  - exfalso. destruct (utf8_high c C) as [F _]. rewrite Forall_forall in F. specialize (F d Hd). unfold high, ascii in *. lia.
Qed.
Lemma flat_ascii s : Forall ascii s -> flat_map utf8 s = s.
Proof. induction 1 as [|c s Hc _ IH]; [reflexivity|]. cbn [flat_map]. rewrite utf8_ascii, IH by auto. reflexivity. Qed.
Lemma flat_nonempty s : text s -> s <> [] -> flat_map utf8 s <> [].
Proof.
  intros T N. destruct s as [|c s]; [congruence|]. inversion T as [|? ? Hc _]; subst. cbn [flat_map]. destruct (point_cases c Hc) as [C|C].
  - rewrite utf8_ascii by auto. discriminate.
  - destruct (utf8_high c C) as [_ F]. intros Q. apply app_eq_nil in Q. tauto.
Qed.
Lemma all_some_text l : Forall text l -> all_some from_string (map (flat_map utf8) l) = Some l.
Proof. induction 1 as [|x l Hx _ IH]; [reflexivity|]. cbn [map all_some]. rewrite from_string_text, IH by auto. reflexivity. Qed.
Lemma all_some_to l : Forall text l -> all_some to_string l = Some (map (flat_map utf8) l).
Proof. induction 1 as [|x l Hx _ IH]; [reflexivity|]. cbn [map all_some]. rewrite to_string_text, IH by auto. reflexivity. Qed.

(** *** split *)
Lemma ds_text d ds : ascii d -> Forall (eq d) ds -> Forall ascii ds.
Proof. intros A. apply Forall_impl. intros a <-. auto. Qed.
Lemma runs_utf8 d s l : ascii d -> runs d s l -> text s -> Forall text l /\ runs d (flat_map utf8 s) (map (flat_map utf8) l).
Proof.
  intros A. induction 1 as [ds D|ds x D N I|ds x s l D N I R IH]; intros T.
  - split; [constructor|]. rewrite flat_ascii by (apply (ds_text d); auto). constructor; auto.
  - apply text_app in T as [T1 T2]. split; [repeat constructor; auto|]. cbn [map]. rewrite flat_map_app, (flat_ascii ds) by (apply (ds_text d); auto).
    apply runs_last; auto; [apply flat_nonempty; auto|]. intros Q. apply I. apply in_utf8; auto.
  - apply text_app in T as [T1 T2]. apply text_app in T2 as [T2 T3]. apply text_app in T3 as [T3 T4]. destruct (IH T4) as [L R']. split; [constructor; auto|].
    cbn [map]. rewrite !flat_map_app, (flat_ascii ds) by (apply (ds_text d); auto). rewrite (flat_ascii [d]) by (repeat constructor; apply A).
    apply runs_item; auto; [apply flat_nonempty; auto|]. intros Q. apply I. apply in_utf8; auto.
Qed.
(** Splitting a text on an ASCII character: the maximal runs of the other characters, whatever
    the characters are. *)
Theorem C135_split s d l : text s -> ascii d -> (py_split s d = Returns l <-> runs d s l).
Proof.
  intros T A.
  assert (K : forall l, runs d s l -> py_split s d = Returns l).
  { intros k R. destruct (runs_utf8 d s k A R T) as [F R']. unfold py_split. rewrite to_string_text by auto. apply C42_split in R'. rewrite R', all_some_text by auto. reflexivity. }
  split; auto. intros Q. assert (R : runs d s (str_split d s)) by (apply C42_split; reflexivity). pose proof (K _ R) as Q'. rewrite Q in Q'. injection Q' as ->. auto.
Qed.
(** A text with a surrogate is refused. *)
Theorem C135_surrogate s d : ~ text s -> py_split s d = Raises /\ py_trim s = Raises /\ py_ltrim s = Raises /\ py_rtrim s = Raises /\ py_to_lower s = Raises /\ py_to_upper s = Raises.
Proof. intros T. unfold py_split, py_trim, py_ltrim, py_rtrim, py_to_lower, py_to_upper, on_copy. rewrite to_string_bad by auto. repeat split. Qed.
(** The delimiter is one [char].  When it is the first byte of a character of the text that is not
    ASCII, the text is cut inside that character and the pieces cannot be decoded. *)
Lemma runs_cons d s l : runs d s l -> runs d (d :: s) l.
Proof. destruct 1 as [ds D|ds x D N I|ds x s l D N I R]; [apply (runs_end d (d :: ds))|apply (runs_last d (d :: ds))|apply (runs_item d (d :: ds))]; auto. Qed.
Lemma runs_ds d ds s l : Forall (eq d) ds -> runs d s l -> runs d (ds ++ s) l.
Proof. induction 1 as [|x ds <- _ IH]; intros R; cbn [app]; auto. apply runs_cons; auto. Qed.
Lemma runs_app d p l1 s l2 : runs d p l1 -> runs d s l2 -> runs d (p ++ [d] ++ s) (l1 ++ l2).
Proof.
  induction 1 as [ds D|ds x D N I|ds x p l D N I R IH]; intros S.
  - cbn [app]. apply runs_ds; auto. apply runs_cons; auto.
  - rewrite <- app_assoc. apply (runs_item d ds x s l2); auto.
  - rewrite <- !app_assoc. cbn [app]. apply (runs_item d ds x (p ++ d :: s) (l ++ l2)); auto.
Qed.
Lemma runs_head d k q : k <> d -> exists x l, runs d (k :: q) ((k :: x) :: l).
Proof.
  intros N. destruct (runs_total d _ (k :: q) (le_n _)) as [l R]. inversion R as [ds D E|ds x D Nx I E|ds x s l' D Nx I R' E]; subst.
  - inversion D; congruence.
  - destruct ds as [|y ds]; [|inversion D; cbn [app] in E; congruence]. cbn [app] in E. subst x. eauto.
  - destruct ds as [|y ds]; [|inversion D; cbn [app] in E; congruence]. cbn [app] in E. destruct x as [|y x]; [congruence|]. cbn [app] in E. injection E as E1 E2. subst y q. exists x, l'. exact R.
Qed.
Lemma all_some_none {A B} (f : A -> option B) l x : In x l -> f x = None -> all_some f l = None.
Proof. induction l as [|y l IH]; intros I E; [destruct I|]. cbn [all_some]. destruct I as [->|I]; [rewrite E; auto|]. destruct (f y); auto. rewrite IH by auto. reflexivity. Qed.
Lemma utf8_second c : 128 <= c < 1114112 -> exists d k t, utf8 c = d :: k :: t /\ k <> d /\ 128 <= of_char k < 192.
Proof.
  intros H. assert (M : forall x, 128 <= 128 + x mod 64 < 192) by (intros x; Z.div_mod_to_equations; lia).
  assert (B : forall b, 128 <= b < 192 -> as_char b < -64 /\ 128 <= of_char (as_char b) < 192).
  { intros b Hb. destruct (as_char_high b ltac:(lia)) as [_ ->]. split; [unfold as_char; destruct (Z.ltb_spec b 128); lia|lia]. }
  assert (G : forall b, 192 <= b < 255 -> -64 <= as_char b) by (intros b Hb; unfold as_char; destruct (Z.ltb_spec b 128); lia).
  unfold utf8. destruct (Z.ltb_spec c 128); [lia|].
  destruct (Z.ltb_spec c 2048); [|destruct (Z.ltb_spec c 65536)]; cbn [map]; do 3 eexists; (split; [reflexivity|]).
  - destruct (B _ (M c)). assert (0 <= c / 64 < 32) by (Z.div_mod_to_equations; lia). pose proof (G (192 + c / 64) ltac:(lia)). split; [lia|auto].
  - destruct (B _ (M (c / 64))). assert (0 <= c / 4096 < 16) by (Z.div_mod_to_equations; lia). pose proof (G (224 + c / 4096) ltac:(lia)). split; [lia|auto].
  - destruct (B _ (M (c / 4096))). assert (0 <= c / 262144 < 5) by (Z.div_mod_to_equations; lia). pose proof (G (240 + c / 262144) ltac:(lia)). split; [lia|auto].
Qed.
Theorem C135_split_high_refuted a c s d : text (a ++ c :: s) -> 128 <= c -> hd 0 (utf8 c) = d -> py_split (a ++ c :: s) d = Raises.
Proof.
  intros T C E. unfold py_split. rewrite to_string_text by auto. apply text_app in T as [_ T]. inversion T as [|? ? Hc _]; subst x l. destruct (utf8_second c) as [d' [k [t [U [N K]]]]]; [lia|].
  rewrite U in E. cbn [hd] in E. subst d'. rewrite flat_map_app. cbn [flat_map]. rewrite U. cbn [app].
  destruct (runs_total d _ (flat_map utf8 a) (le_n _)) as [l1 R1]. destruct (runs_head d k (t ++ flat_map utf8 s) N) as [x [l2 R2]]. pose proof (runs_app _ _ _ _ _ R1 R2) as R. apply C42_split in R. cbn [app] in R. rewrite R.
  rewrite (all_some_none from_string _ (k :: x)); [reflexivity|apply in_or_app; right; left; auto|].
  unfold from_string. cbn [map from_bytes]. set (b := of_char k) in *. destruct (Z.ltb_spec b 128); [lia|]. destruct (Z.leb_spec 192 b); [lia|]. destruct (Z.leb_spec 224 b); [lia|]. destruct (Z.leb_spec 240 b); [lia|]. reflexivity.
Qed.

(** *** join *)
Lemma c_str_spec s : before_nul s (c_str s) /\ (forall r, before_nul s r -> r = c_str s).
Proof.
  assert (P : forall s, before_nul s (c_str s)).
  { clear. induction s as [|c s [IH1 IH2]]; cbn [c_str]; [split; auto|]. destruct (Z.eqb_spec c 0) as [->|N].
    - split; [intros []|]. right. exists s. reflexivity.
    - split; [intros [Q|Q]; auto|]. destruct IH2 as [Q|[t Q]]; [left; congruence|right; exists t; cbn [app]; congruence]. }
  split; [apply P|]. intros r. revert r. induction s as [|c s IH]; intros r [N [->|[t Q]]]; cbn [c_str].
  - reflexivity.
  - destruct r; discriminate.
  - destruct (Z.eqb_spec c 0) as [->|Nc]; [exfalso; apply N; left; auto|]. f_equal. apply IH. split; [intros I; apply N; right; auto|auto].
  - destruct r as [|x r]; cbn [app] in Q; injection Q as -> ->; [rewrite Z.eqb_refl; reflexivity|]. destruct (Z.eqb_spec x 0) as [->|Nc]; [exfalso; apply N; left; auto|].
    f_equal. apply IH. split; [intros I; apply N; right; auto|]. right. exists t. auto.
Qed.
Lemma joined_stream d l s : joined d l s <-> s = join_stream d l.
Proof.
  split.
  - induction 1 as [|x|x y l s J IH]; auto. cbn [join_stream]. subst s. reflexivity.
  - intros ->. induction l as [|x [|y l] IH]; [constructor|constructor|]. change (join_stream d (x :: y :: l)) with (x ++ d :: join_stream d (y :: l)). constructor; auto.
Qed.
Lemma join_stream_utf8 d l : ascii d -> join_stream d (map (flat_map utf8) l) = flat_map utf8 (join_stream d l).
Proof.
  intros A. induction l as [|x [|y l] IH]; auto. change (join_stream d (x :: y :: l)) with (x ++ [d] ++ join_stream d (y :: l)). rewrite !flat_map_app, <- IH, (flat_ascii [d]) by (repeat constructor; apply A). reflexivity.
Qed.
Lemma join_stream_text d l : ascii d -> Forall text l -> text (join_stream d l).
Proof.
  intros A. induction 1 as [|x l Hx F IH]; [constructor|]. destruct l as [|y l]; [auto|]. change (join_stream d (x :: y :: l)) with (x ++ [d] ++ join_stream d (y :: l)).
  apply text_app. split; auto. apply text_app. split; auto. constructor; [unfold ascii in A; lia|constructor].
Qed.
Lemma c_str_utf8 s : text s -> c_str (flat_map utf8 s) = flat_map utf8 (c_str s).
Proof.
  intros T. destruct (c_str_spec s) as [[N Q] _]. symmetry. apply c_str_spec. 
  assert (T' : text (c_str s)) by (destruct Q as [Q|[t Q]]; [rewrite Q; auto|rewrite Q in T; apply text_app in T; tauto]).
  split; [intros I; apply N; apply in_utf8; auto; unfold ascii; lia|]. destruct Q as [Q|[t Q]]; [left; congruence|right]. exists (flat_map utf8 t). rewrite Q at 1. rewrite flat_map_app. reflexivity.
Qed.
(** Joining texts with an ASCII character, up to the first NUL. *)
Theorem C135_join_actual l d r : Forall text l -> ascii d -> (py_join l d = Returns r <-> exists s, joined d l s /\ before_nul s r).
Proof.
  intros F A. unfold py_join. rewrite all_some_to by auto. unfold join. pose proof (join_stream_text d l A F) as T. rewrite join_stream_utf8, c_str_utf8 by auto. destruct (c_str_spec (join_stream d l)) as [P U].
  assert (T' : text (c_str (join_stream d l))) by (destruct P as [_ [Q|[t Q]]]; [rewrite Q; auto|rewrite Q in T; apply text_app in T; tauto]).
  rewrite from_string_text by auto. cbn [to_py]. split.
  - intros Q. injection Q as <-. exists (join_stream d l). split; [apply joined_stream|]; auto.
  - intros [s [J B]]. apply joined_stream in J. subst s. rewrite <- (U r B). reflexivity.
Qed.
Theorem C135_join l d : Forall text l -> ascii d -> (forall s, joined d l s -> ~ In 0 s) -> forall r, py_join l d = Returns r <-> joined d l r.
Proof.
  intros F A N r. rewrite (C135_join_actual l d r F A). split.
  - intros [s [J [B [->|[t E]]]]]; auto. exfalso. apply (N s J). rewrite E. apply in_or_app. right. left. auto.
  - intros J. exists r. split; auto. split; [apply N; auto|]. auto.
Qed.
Theorem C135_join_refuted l d s t : Forall text l -> ascii d -> joined d l (s ++ 0 :: t) -> ~ In 0 s -> py_join l d = Returns s.
Proof. intros F A J N. apply C135_join_actual; auto. exists (s ++ 0 :: t). split; auto. split; eauto. Qed.
(** Splitting what was joined gives the items back. *)
Theorem C135_round_trip l d : ascii d -> d <> 0 -> Forall text l -> Forall (fun x => x <> [] /\ ~ In d x /\ ~ In 0 x) l ->
  exists s, py_join l d = Returns s /\ py_split s d = Returns l.
Proof.
  intros A N F H. exists (join_stream d l). assert (Z0 : ~ In 0 (join_stream d l)) by (apply join_stream_nul; auto; eapply Forall_impl; [|exact H]; cbn beta; intros a [? [? ?]]; auto). split.
  - apply C135_join; auto; [|apply joined_stream; auto]. intros s J. apply joined_stream in J. subst s. auto.
  - apply C135_split; auto; [apply join_stream_text; auto|]. apply runs_join. eapply Forall_impl; [|exact H]; cbn beta; intros a [? [? ?]]; auto.
Qed.

(** *** trim *)
Lemma space_ascii c : space c -> ascii c.
Proof. unfold space, ascii. lia. Qed.
Lemma ltrim_spaces a r : Forall space a -> ltrim (a ++ r) = ltrim r.
Proof.
  induction 1 as [|c a Hc _ IH]; [reflexivity|]. cbn [app ltrim]. destruct (isspace_ok c) as [b [Eb Hb]]; [unfold char_ok; pose proof (space_ascii c Hc); unfold ascii in *; lia|]. rewrite Eb. cbn [bind]. destruct b; auto.
  exfalso. assert (false = true) by (apply Hb; auto). discriminate.
Qed.
Lemma ltrim_stop c t : ascii c -> ~ space c -> ltrim (c :: t) = Ok (c :: t).
Proof.
  intros A N. cbn [ltrim]. destruct (isspace_ok c) as [b [Eb Hb]]; [unfold char_ok, ascii in *; lia|]. rewrite Eb. cbn [bind]. destruct b; auto. exfalso. apply N. apply Hb. auto.
Qed.
Lemma ltrim_high b t : high b -> ltrim (b :: t) = UB.
Proof. intros H. cbn [ltrim]. replace (isspace b) with (@UB bool); auto. symmetry. apply isspace_ub; unfold high in H; lia. Qed.
Lemma spaces_flat a : Forall space a -> flat_map utf8 a = a.
Proof. intros H. apply flat_ascii. eapply Forall_impl; [|exact H]. apply space_ascii. Qed.
(** The two scans of an encoded text that begins, ends with a character that is not a space. *)
Lemma scan_front r b : text r -> (forall c t, r = c :: t -> ~ space c) ->
  ((forall c t, r = c :: t -> ascii c) /\ (r = [] \/ ltrim (flat_map utf8 r ++ b) = Ok (flat_map utf8 r ++ b))) \/ (exists c t, r = c :: t /\ ~ ascii c /\ ltrim (flat_map utf8 r ++ b) = UB).
Proof.
  intros T N. destruct r as [|c r]; [left; split; [discriminate|auto]|]. inversion T as [|? ? Hc _]; subst. destruct (point_cases c Hc) as [C|C].
  - left. split; [intros x t Q; injection Q as <- _; auto|]. right. cbn [flat_map]. rewrite utf8_ascii by auto. cbn [app]. apply ltrim_stop; eauto.
  - right. exists c, r. split; auto. split; [unfold ascii; lia|]. destruct (utf8_high c C) as [F E]. cbn [flat_map]. destruct (utf8 c) as [|x u]; [congruence|]. cbn [app]. apply ltrim_high. inversion F; auto.
Qed.
Lemma scan_back r : text r -> (forall c t, r = t ++ [c] -> ~ space c) ->
  ((forall c t, r = t ++ [c] -> ascii c) /\ rtrim (flat_map utf8 r) = Ok (flat_map utf8 r)) \/ (exists c t, r = t ++ [c] /\ ~ ascii c /\ rtrim (flat_map utf8 r) = UB).
Proof.
  intros T N. destruct r as [|x r0]; [left; split; [intros c t Q; destruct t; discriminate|reflexivity]|]. destruct (@exists_last _ (x :: r0)) as [t [c E]]; [discriminate|]. rewrite E in *. clear E x r0.
  apply text_app in T as [T1 T2]. inversion T2 as [|? ? Hc _]; subst. unfold rtrim. rewrite flat_map_app. cbn [flat_map]. rewrite app_nil_r, rev_app_distr. destruct (point_cases c Hc) as [C|C].
  - left. split; [intros c' t' Q; apply app_inj_tail in Q as [_ <-]; auto|]. rewrite utf8_ascii by auto. cbn [rev app]. rewrite ltrim_stop; eauto. cbn [bind rev]. rewrite rev_involutive. reflexivity.
  - right. exists c, t. split; auto. split; [unfold ascii; lia|]. destruct (utf8_high c C) as [F E]. apply Forall_rev in F. destruct (rev (utf8 c)) as [|y u] eqn:R; [exfalso; apply E; rewrite <- (rev_involutive (utf8 c)), R; reflexivity|].
    cbn [app]. rewrite ltrim_high; [reflexivity|inversion F; auto].
Qed.
Lemma rtrim_spaces r b : Forall space b -> rtrim (r ++ b) = rtrim r.
Proof. intros H. unfold rtrim. rewrite rev_app_distr, ltrim_spaces by (apply Forall_rev; auto). reflexivity. Qed.
Lemma ltrimmed_total s : exists r, ltrimmed s r.
Proof.
  induction s as [|c s [r [a [E [A N]]]]]; [exists [], []; repeat split; auto; discriminate|].
  assert (D : {space c} + {~ space c}).
  { unfold space. destruct (Z.eq_dec c 32); [left; auto|]. destruct (Z_le_dec 9 c); [destruct (Z_le_dec c 13); [left; lia|right; lia]|right; lia]. }
  destruct D as [S|S].
  - exists r, (c :: a). subst s. repeat split; auto.
  - exists (c :: s), []. repeat split; auto. intros c' t Q. injection Q as <- _. auto.
Qed.
Lemma rtrimmed_rev s r : ltrimmed (rev s) (rev r) -> rtrimmed s r.
Proof.
  intros [a [E [A N]]]. exists (rev a). split; [rewrite <- (rev_involutive s), E, rev_app_distr, rev_involutive; auto|]. split; [apply Forall_rev; auto|]. intros c t Q. apply (N c (rev t)). rewrite Q, rev_app_distr. reflexivity.
Qed.
Lemma rtrimmed_total s : exists r, rtrimmed s r.
Proof. destruct (ltrimmed_total (rev s)) as [r H]. exists (rev r). apply rtrimmed_rev. rewrite rev_involutive. auto. Qed.
Lemma on_copy_ok f s r : text s -> text r -> f (flat_map utf8 s) = Ok (flat_map utf8 r) -> on_copy f s = Returns r.
Proof. intros T R E. unfold on_copy. rewrite to_string_text, E, from_string_text by auto. reflexivity. Qed.
Lemma on_copy_ub f s : text s -> f (flat_map utf8 s) = UB -> on_copy f s = Undefined.
Proof. intros T E. unfold on_copy. rewrite to_string_text, E by auto. reflexivity. Qed.
(** ltrim removes the leading white space; it is undefined exactly when the first character that
    is left is not ASCII. *)
Lemma ltrim_cases s r : text s -> ltrimmed s r -> ((forall c t, r = c :: t -> ascii c) /\ py_ltrim s = Returns r) \/ (exists c t, r = c :: t /\ ~ ascii c /\ py_ltrim s = Undefined).
Proof.
  intros T [a [E [A N]]]. assert (T' : text s) by auto. rewrite E in T. apply text_app in T as [Ta Tr].
  assert (F : ltrim (flat_map utf8 s) = ltrim (flat_map utf8 r ++ [])) by (rewrite E, flat_map_app, spaces_flat, ltrim_spaces, app_nil_r; auto).
  destruct (scan_front r [] Tr N) as [[P Q]|[c [t [-> [P Q]]]]].
  - left. split; auto. apply on_copy_ok; auto. rewrite F. destruct Q as [->|Q]; [reflexivity|]. rewrite Q, app_nil_r. reflexivity.
  - right. exists c, t. split; auto. split; auto. apply on_copy_ub; auto. rewrite F. auto.
Qed.
Lemma rtrim_cases s r : text s -> rtrimmed s r -> ((forall c t, r = t ++ [c] -> ascii c) /\ py_rtrim s = Returns r) \/ (exists c t, r = t ++ [c] /\ ~ ascii c /\ py_rtrim s = Undefined).
Proof.
  intros T [b [E [B N]]]. assert (T' : text s) by auto. rewrite E in T. apply text_app in T as [Tr Tb].
  assert (F : rtrim (flat_map utf8 s) = rtrim (flat_map utf8 r)) by (rewrite E, flat_map_app, (spaces_flat b), rtrim_spaces; auto).
  destruct (scan_back r Tr N) as [[P Q]|[c [t [-> [P Q]]]]].
  - left. split; auto. apply on_copy_ok; auto. congruence.
  - right. exists c, t. split; auto. split; auto. apply on_copy_ub; auto. congruence.
Qed.
Lemma trim_cases s r : text s -> trimmed s r ->
  ((forall c t, r = c :: t -> ascii c) /\ (forall c t, r = t ++ [c] -> ascii c) /\ py_trim s = Returns r) \/ ((exists c t, (r = c :: t \/ r = t ++ [c]) /\ ~ ascii c) /\ py_trim s = Undefined).
Proof.
  intros T [a [b [E [A [B [N M]]]]]]. assert (T' : text s) by auto. rewrite E in T. apply text_app in T as [Ta Tr]. apply text_app in Tr as [Tr Tb].
  assert (F : ltrim (flat_map utf8 s) = ltrim (flat_map utf8 r ++ b)) by (rewrite E, !flat_map_app, (spaces_flat a), (spaces_flat b), ltrim_spaces; auto).
  destruct (scan_front r b Tr N) as [[P Q]|[c [t [-> [P Q]]]]].
  - destruct Q as [->|Q].
    + left. split; [discriminate|]. split; [intros c t X; destruct t; discriminate|]. apply on_copy_ok; auto. unfold trim. rewrite F. cbn [flat_map app]. rewrite <- (app_nil_r b), ltrim_spaces by auto. reflexivity.
    + assert (G : trim (flat_map utf8 s) = rtrim (flat_map utf8 r)) by (unfold trim; rewrite F, Q; cbn [bind]; apply rtrim_spaces; auto).
      destruct (scan_back r Tr M) as [[P' Q']|[c [t [-> [P' Q']]]]].
      * left. split; auto. split; auto. apply on_copy_ok; auto. congruence.
      * right. split; [exists c, t; auto|]. apply on_copy_ub; auto. congruence.
  - right. split; [exists c, t; auto|]. apply on_copy_ub; auto. unfold trim. rewrite F, Q. reflexivity.
Qed.
Theorem C135_ltrim_partial s r : text s -> (py_ltrim s = Returns r <-> ltrimmed s r /\ (forall c t, r = c :: t -> ascii c)).
Proof.
  intros T. split.
  - intros E. destruct (ltrimmed_total s) as [q Q]. destruct (ltrim_cases s q T Q) as [[P E']|[c [t [_ [_ E']]]]]; rewrite E in E'; [injection E' as <-; auto|discriminate].
  - intros [L P]. destruct (ltrim_cases s r T L) as [[_ E]|[c [t [-> [N _]]]]]; auto. exfalso. apply N. eauto.
Qed.
Theorem C135_rtrim_partial s r : text s -> (py_rtrim s = Returns r <-> rtrimmed s r /\ (forall c t, r = t ++ [c] -> ascii c)).
Proof.
  intros T. split.
  - intros E. destruct (rtrimmed_total s) as [q Q]. destruct (rtrim_cases s q T Q) as [[P E']|[c [t [_ [_ E']]]]]; rewrite E in E'; [injection E' as <-; auto|discriminate].
  - intros [L P]. destruct (rtrim_cases s r T L) as [[_ E]|[c [t [-> [N _]]]]]; auto. exfalso. apply N. eauto.
Qed.
Lemma trimmed_total s : exists r, trimmed s r.
Proof.
  destruct (ltrimmed_total s) as [q [a [E [A N]]]]. destruct (rtrimmed_total q) as [r [b [E' [B M]]]]. exists r, a, b. subst q. repeat split; auto.
  intros c t ->. apply (N c (t ++ b)). reflexivity.
Qed.
Theorem C135_trim_partial s r : text s -> (py_trim s = Returns r <-> trimmed s r /\ (forall c t, r = c :: t -> ascii c) /\ (forall c t, r = t ++ [c] -> ascii c)).
Proof.
  intros T. split.
  - intros E. destruct (trimmed_total s) as [q Q]. destruct (trim_cases s q T Q) as [[P [P' E']]|[_ E']]; rewrite E in E'; [injection E' as <-; auto|discriminate].
  - intros [L [P P']]. destruct (trim_cases s r T L) as [[_ [_ E]]|[[c [t [[-> | ->] N]]] _]]; auto; exfalso; apply N; eauto.
Qed.
(** A text whose first, or last, character that is not a space is not ASCII is not trimmed. *)
Theorem C135_trim_refuted s c t : text s -> ~ ascii c ->
  (ltrimmed s (c :: t) -> py_ltrim s = Undefined) /\ (rtrimmed s (t ++ [c]) -> py_rtrim s = Undefined) /\ (trimmed s (c :: t) \/ trimmed s (t ++ [c]) -> py_trim s = Undefined).
Proof.
  intros T N. split; [|split].
  - intros L. destruct (ltrim_cases s _ T L) as [[P _]|[c' [t' [_ [_ E]]]]]; auto. exfalso. apply N. eauto.
  - intros L. destruct (rtrim_cases s _ T L) as [[P _]|[c' [t' [_ [_ E]]]]]; auto. exfalso. apply N. eauto.
  - intros [L|L]; (destruct (trim_cases s _ T L) as [[P [P' _]]|[_ E]]; auto; exfalso; apply N; eauto).
Qed.

(** *** case *)
Lemma lower_ascii c : ascii c -> ascii (lower c) /\ ascii (upper c) /\ tolower_c c = Ok (lower c) /\ toupper_c c = Ok (upper c).
Proof.
  unfold ascii. intros H. assert (R : (-1 <=? c) && (c <=? 255) = true) by (rewrite andb_true_iff, !Z.leb_le; lia). unfold tolower_c, toupper_c, ctype. rewrite R. fold (lower c) (upper c).
  split; [|split; [|auto]].
  - unfold lower. destruct (Z.leb_spec 65 c), (Z.leb_spec c 90); cbn [andb]; lia.
  - unfold upper. destruct (Z.leb_spec 97 c), (Z.leb_spec c 122); cbn [andb]; lia.
Qed.
Lemma ascii_text s : Forall ascii s -> text s.
Proof. apply Forall_impl. unfold ascii. intros; lia. Qed.
Theorem C135_case_partial s : Forall ascii s -> py_to_lower s = Returns (map lower s) /\ py_to_upper s = Returns (map upper s).
Proof.
  intros F. assert (G : Forall ascii (map lower s) /\ Forall ascii (map upper s) /\ tolower s = Ok (map lower s) /\ toupper s = Ok (map upper s)).
  { unfold tolower, toupper. induction F as [|c s Hc F IH]; [repeat split; constructor|]. destruct IH as [I1 [I2 [I3 I4]]]. destruct (lower_ascii c Hc) as [L1 [L2 [L3 L4]]].
    cbn [map mapM]. rewrite L3, L4. cbn [bind]. rewrite I3, I4. repeat split; auto. }
  destruct G as [G1 [G2 [G3 G4]]]. split; apply on_copy_ok; try (apply ascii_text; auto); rewrite !flat_ascii; auto.
Qed.
(** Any other character, wherever it is, makes the conversion undefined. *)
Theorem C135_case_refuted s c : text s -> In c s -> ~ ascii c -> py_to_lower s = Undefined /\ py_to_upper s = Undefined.
Proof.
  intros T I N. assert (Hc : 128 <= c < 1114112) by (unfold text in T; rewrite Forall_forall in T; destruct (point_cases c (T c I)); [contradiction|auto]). destruct (utf8_high c Hc) as [F E].
  destruct (utf8 c) as [|b u] eqn:U; [congruence|]. inversion F as [|? ? Hb _]; subst. unfold high in Hb.
  destruct (C72_case_high_refuted (flat_map utf8 s) b) as [A B]; [apply in_flat_map; exists c; rewrite U; split; auto; left; auto|auto|]. split; apply on_copy_ub; auto.
Qed.

(** *** the auditory spaces *)
Definition spaces := [(melspace, hertz2mel); (erbspace, hertz2erb); (barkspace, hertz2bark); (centspace, hertz2cent)].
Theorem C135_space space conv junk mn mx size : In (space, conv) spaces -> Z.of_nat (length junk) = size -> (0 < mn <= mx)%R ->
  exists v, py_space space true junk mn mx size = Returns (Ok v) /\ Z.of_nat (length v) = size /\
   (forall i, 0 <= i < size -> conv (mn + IZR i * ((mx - mn) / (IZR size - 1)))%R = Ok (nth (Z.to_nat i) v 0%R)) /\
   (1 <= size -> conv mn = Ok (hd 0%R v)) /\ (2 <= size -> conv mx = Ok (last v 0%R)).
Proof.
  intros I L M. unfold py_space. destruct (Z.ltb_spec size 0); [lia|]. cbn [negb].
  assert (C : exists v, conv mn = Ok v).
  { simpl in I. destruct I as [E|[E|[E|[E|[]]]]]; injection E as _ <-.
    - destruct (C45_mel mn ltac:(lra)) as [v [Q _]]. eauto.
    - destruct (C45_erb mn ltac:(lra)) as [v [Q _]]. eauto.
    - destruct (C45_bark mn ltac:(lra)) as [v [Q _]]. eauto.
    - destruct (C46_cent_actual mn ltac:(lra)) as [v [Q _]]. eauto. }
  assert (SP : space = audspace_with conv) by (simpl in I; destruct I as [E|[E|[E|[E|[]]]]]; injection E as <- <-; reflexivity).
  destruct junk as [|j0 [|j1 junk]]; cbn [length] in L.
  - exists []. subst size. rewrite SP. split; [reflexivity|]. split; auto. split; [intros; lia|]. split; lia.
  - destruct C as [v0 C]. exists [v0]. subst size. rewrite SP. change (Z.to_nat (Z.of_nat 1)) with 1%nat. unfold audspace_with, linspace. cbn. rewrite C. split; [reflexivity|]. split; auto. split; [|split; [auto|lia]].
    intros i Hi. replace i with 0 by lia. cbn [Z.to_nat nth]. rewrite <- C. f_equal. ring.
  - set (n := S (S (length junk))) in *. assert (Nn : (2 <= n)%nat) by (unfold n; lia).
    destruct (C73_space_values conv space (j0 :: j1 :: junk) 0 n mn mx I Nn) as [v [E [Lv [P [[lo [hi [E1 [E2 [N1 N2]]]]] _]]]]]; [unfold in_range; cbn [length]; unfold n; lia|auto|].
    exists v. replace (Z.to_nat size) with n by lia. rewrite E. split; auto. cbn [length] in Lv. fold n in Lv. split; [lia|]. cbn [Nat.add] in *.
    assert (Nv : forall k x, nth_error v k = Some x -> nth k v 0%R = x) by (intros k x Q; apply nth_error_nth; auto).
    assert (Sz : IZR size = INR n) by (rewrite <- L, <- INR_IZR_INZ; reflexivity).
    split; [|split].
    + intros i Hi. destruct (P (Z.to_nat i)) as [x [Cx Nx]]; [lia|]. rewrite (Nv _ _ Nx), <- Cx, Sz. do 2 f_equal. f_equal. rewrite INR_IZR_INZ, Z2Nat.id by lia. reflexivity.
    + intros _. rewrite E1. f_equal. destruct v as [|y v]; [discriminate|]. cbn in N1 |- *. congruence.
    + intros _. rewrite E2. f_equal. symmetry. rewrite <- Lv in N2. clear - N2 Lv Nn. destruct (@exists_last _ v) as [w [z ->]]; [destruct v; [cbn in Lv; lia|discriminate]|].
      rewrite last_last. rewrite app_length in N2. cbn [length] in N2. rewrite nth_error_app2 in N2 by lia. replace (length w + 1 - 1 - length w)%nat with 0%nat in N2 by lia. cbn in N2. congruence.
Qed.
(** A size that NumPy refuses is not reported: the process ends. *)
Theorem C135_space_refused_refuted space conv junk mn mx size alloc : In (space, conv) spaces -> size < 0 \/ alloc = false -> py_space space alloc junk mn mx size = Terminates.
Proof. intros _ [H| ->]; unfold py_space; destruct (Z.ltb_spec size 0); auto; lia. Qed.

(** "  Ünïté ok " (code points), a Greek list, and refused arguments. *)
Example C135_ex_split : py_split [955; 44; 956; 957; 44; 44; 128512] 44 = Returns [[955]; [956; 957]; [128512]] /\ text [955; 44; 956; 957; 44; 44; 128512] /\ ascii 44.
Proof. split; [reflexivity|]. split; [repeat constructor; lia|unfold ascii; lia]. Qed.
Example C135_ex_high : py_split [955; 44; 956] (-50) = Raises /\ hd 0 (utf8 955) = -50 /\ py_split [97; 56000] 44 = Raises.
Proof. repeat split. Qed.
Example C135_ex_join : py_join [[955]; [956; 957]] 44 = Returns [955; 44; 956; 957] /\ py_join [[955; 0]; [956]] 44 = Returns [955].
Proof. split; reflexivity. Qed.
Example C135_ex_trim : py_trim [32; 97; 955; 98; 10] = Returns [97; 955; 98] /\ py_trim [32; 955; 98] = Undefined /\ py_trim [97; 955; 32] = Undefined /\ py_ltrim [32; 97; 955; 32] = Returns [97; 955; 32] /\ py_rtrim [32; 955; 97; 32] = Returns [32; 955; 97].
Proof. repeat split. Qed.
Example C135_ex_case : py_to_upper [97; 66; 33] = Returns [65; 66; 33] /\ py_to_lower [97; 66; 955] = Undefined.
Proof. split; reflexivity. Qed.
Example C135_ex_space : In (melspace, hertz2mel) spaces /\ Z.of_nat (length [0; 0; 0]%R) = 3 /\ (0 < 100 <= 8000)%R.
Proof. split; [left; auto|]. split; [auto|lra]. Qed.
Print Assumptions C135_split.
Print Assumptions C135_surrogate.
Print Assumptions C135_split_high_refuted.
Print Assumptions C135_join_actual.
Print Assumptions C135_join.
Print Assumptions C135_join_refuted.
Print Assumptions C135_round_trip.
Print Assumptions C135_ltrim_partial.
Print Assumptions C135_rtrim_partial.
Print Assumptions C135_trim_partial.
Print Assumptions C135_trim_refuted.
Print Assumptions C135_case_partial.
Print Assumptions C135_case_refuted.
Print Assumptions C135_space.
Print Assumptions C135_space_refused_refuted.
