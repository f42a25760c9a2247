(** Theorems C137: metadata of audio files. *)
From Verif Require Import MetaModel StringProps.
Local Open Scope Z_scope.

(** The [char] that holds a Latin-1 character. *)
Definition latin1 (c : Z) : Prop := 0 <= c < 256.
Definition same_char (c b : Z) : Prop := latin1 c /\ -128 <= b <= 127 /\ (b = c \/ b = c - 256).
Lemma to8bit_latin s : Forall latin1 s -> Forall2 same_char s (to8bit s).
Proof.
  unfold to8bit, same_char, latin1. induction 1 as [|c s H _ IH]; cbn [map]; constructor; auto. cbv zeta. rewrite Z.mod_small by lia. destruct (Z.ltb_spec c 128); lia.
Qed.
Lemma c_str_none s : ~ In 0 s -> c_str s = s.
Proof. induction s as [|c s IH]; intros N; cbn [c_str]; auto. destruct (Z.eqb_spec c 0) as [->|]; [exfalso; apply N; left; auto|]. rewrite IH; auto. intros Q. apply N. right; auto. Qed.
Definition texts (t : tag) : list (list Z) := [tag_title t; tag_artist t; tag_album t; tag_genre t].
(** Of a file TagLib can read, with Latin-1 texts, every field is returned as it is in the tag. *)
Theorem C137_fields_partial disk file t : ~ In 0 file -> disk file = Some t -> Forall (Forall latin1) (texts t) ->
  exists ti ar al ge, let m := metadata_new disk file in
   md_title m = Ok ti /\ md_artist m = Ok ar /\ md_album m = Ok al /\ md_genre m = Ok ge /\ md_track m = Ok (tag_track t) /\ md_year m = Ok (tag_year t) /\
   Forall2 same_char (tag_title t) ti /\ Forall2 same_char (tag_artist t) ar /\ Forall2 same_char (tag_album t) al /\ Forall2 same_char (tag_genre t) ge.
Proof.
  intros N D L. unfold texts in L. repeat match goal with H : Forall _ (_ :: _) |- _ => inversion H; clear H; subst end.
  exists (to8bit (tag_title t)), (to8bit (tag_artist t)), (to8bit (tag_album t)), (to8bit (tag_genre t)). cbv zeta. unfold metadata_new. rewrite !c_str_none by (rewrite ?c_str_none; auto). rewrite D.
  repeat split; auto using to8bit_latin.
Qed.
(** A file that cannot be read is not reported: every accessor dereferences a null pointer. *)
Theorem C137_unreadable_refuted disk file : ~ In 0 file -> disk file = None ->
  let m := metadata_new disk file in md_title m = UB /\ md_artist m = UB /\ md_album m = UB /\ md_genre m = UB /\ md_track m = UB /\ md_year m = UB.
Proof. intros N D. cbv zeta. unfold metadata_new. rewrite !c_str_none by (rewrite ?c_str_none; auto). rewrite D. repeat split. Qed.
(** A name with a NUL opens another file. *)
Theorem C137_name_refuted disk a b : ~ In 0 a -> metadata_new disk (a ++ 0 :: b) = metadata_new disk a.
Proof.
  intros N. unfold metadata_new. assert (E : c_str (a ++ 0 :: b) = a) by (rewrite c_str_app by auto; cbn; apply app_nil_r). rewrite E, !c_str_none by (rewrite ?c_str_none; auto). reflexivity.
Qed.
(** Whatever the text, two texts whose units agree modulo 256 are returned alike: a unit above the
    Latin-1 range comes back as another character. *)
Theorem C137_wide_refuted disk file t c : ~ In 0 file -> disk file = Some t -> In c (tag_title t) -> ~ latin1 c ->
  exists r, md_title (metadata_new disk file) = Ok r /\ ~ Forall2 same_char (tag_title t) r /\ r = to8bit (map (fun c => c mod 256) (tag_title t)).
Proof.
  intros N D I W. exists (to8bit (tag_title t)). unfold metadata_new. rewrite !c_str_none by (rewrite ?c_str_none; auto). rewrite D. split; [reflexivity|]. split.
  - unfold to8bit. revert I. generalize (tag_title t). induction l as [|x l IH]; intros I F; [destruct I|]. cbn [map] in F. inversion F as [|? ? ? ? Hx Fl]; subst. destruct I as [->|I]; [|apply IH; auto].
    apply W. unfold same_char, latin1 in *. pose proof (Z.mod_pos_bound c 256 ltac:(lia)). pose proof (Z.div_mod c 256 ltac:(lia)). cbv zeta in Hx. destruct (Z.ltb_spec (c mod 256) 128); lia.
  - unfold to8bit. rewrite map_map. apply map_ext. intros x. rewrite Z.mod_mod by lia. reflexivity.
Qed.
Example C137_ex : let t := {| tag_title := [233; 116; 233]; tag_artist := [65]; tag_album := []; tag_genre := [66]; tag_track := 3; tag_year := 2019 |} in
  let disk := fun n => match n with [97] => Some t | _ => None end in
  md_title (metadata_new disk [97]) = Ok [-23; 116; -23] /\ md_year (metadata_new disk [97]) = Ok 2019 /\ Forall (Forall latin1) (texts t) /\ md_title (metadata_new disk [98]) = UB /\ to8bit [955; 33] = [-69; 33].
Proof. cbv zeta. repeat split; unfold texts; cbn; repeat constructor; unfold latin1; lia. Qed.
Print Assumptions C137_fields_partial.
Print Assumptions C137_unreadable_refuted.
Print Assumptions C137_name_refuted.
Print Assumptions C137_wide_refuted.
