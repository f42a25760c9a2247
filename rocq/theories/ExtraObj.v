(** Programs that construct, copy, assign and destroy objects holding handles. *)
From Verif Require Import Base BaseProofs IOModel ExtraModel ExtraSpec.
Local Open Scope res_scope.
Notation callfn := (world * option nat -> hop -> res (world * option nat)).

Lemma in_existsb h l : existsb (Nat.eqb h) l = true <-> In h l.
Proof.
  rewrite existsb_exists. split; [intros [x [I E]]; apply Nat.eqb_eq in E; subst; auto|intros I; exists h; split; auto; apply Nat.eqb_refl].
Qed.
Lemma liveb_iff w h : liveb w h = true <-> live w h.
Proof.
  unfold liveb, live. rewrite andb_true_iff, in_existsb, negb_true_iff. split; intros [A B]; split; auto.
  - intros I. apply in_existsb in I. congruence.
  - destruct (existsb (Nat.eqb h) (closed w)) eqn:E; auto. apply in_existsb in E. contradiction.
Qed.
Lemma w_close_ok w h w' : w_close w h = Ok w' -> live w h /\ opened w' = opened w /\ closed w' = closed w ++ [h].
Proof. unfold w_close. destruct (liveb w h) eqn:L; intros E; [|discriminate]. injection E as <-. apply liveb_iff in L. auto. Qed.
Lemma w_close_live w h : live w h -> w_close w h = Ok (mkWorld (opened w) (closed w ++ [h])).
Proof. intros L. unfold w_close. apply liveb_iff in L. rewrite L. reflexivity. Qed.

Lemma put1 {A} (l : list A) i v : i < length l -> exists m, put l i [v] = Ok m /\ length m = length l /\
  nth_error m i = Some v /\ forall j, j <> i -> nth_error m j = nth_error l j.
Proof.
  intros H. destruct (store_ok l i v H) as [m [E [L [N O]]]]. exists m. cbn [put]. rewrite E. cbn [bind]. auto.
Qed.
Lemma the_obj_ok s i h : the_obj s i = Ok h <-> nth_error (objs s) i = Some (Some h).
Proof.
  unfold the_obj. destruct (nth_error (objs s) i) as [[o|]|]; split; intros E; try discriminate; try injection E as ->; auto.
Qed.
Lemma the_obj_ub s i : dead s i -> the_obj s i = UB.
Proof. intros D. unfold the_obj. destruct (nth_error (objs s) i) as [[o|]|] eqn:E; auto. destruct (D o E). Qed.

(** What an accepted command does. *)
Definition updated (s s' : store_) (i : nat) (o : option (option nat)) : Prop :=
  nth_error (objs s') i = Some o /\ length (objs s') = length (objs s) /\ forall j, j <> i -> nth_error (objs s') j = nth_error (objs s) j.
Lemma pcall_inv (call : callfn) s i c s' : pstep call s (PCall i c) = Ok s' ->
  exists h h', nth_error (objs s) i = Some (Some h) /\ call (w_ s, h) c = Ok (w_ s', h') /\ updated s s' i (Some h').
Proof.
  cbn [pstep]. intros E. apply bind_Ok in E as [h [Eh E]]. apply the_obj_ok in Eh. apply bind_Ok in E as [[w h'] [Ec E]]. cbn [fst snd] in E.
  destruct (put1 (objs s) i (Some h')) as [m [P [L [N O]]]]; [apply nth_error_Some; congruence|]. rewrite P in E. cbn [bind] in E. injection E as <-. exists h, h'. unfold updated. cbn. auto.
Qed.
Lemma pdestroy_inv (call : callfn) s i s' : pstep call s (PDestroy i) = Ok s' ->
  exists h h', nth_error (objs s) i = Some (Some h) /\ call (w_ s, h) HClose = Ok (w_ s', h') /\ updated s s' i None.
Proof.
  cbn [pstep]. intros E. apply bind_Ok in E as [h [Eh E]]. apply the_obj_ok in Eh. apply bind_Ok in E as [[w h'] [Ec E]]. cbn [fst snd] in E.
  destruct (put1 (objs s) i None) as [m [P [L [N O]]]]; [apply nth_error_Some; congruence|]. rewrite P in E. cbn [bind] in E. injection E as <-. exists h, h'. unfold updated. cbn. auto.
Qed.
Lemma passign_inv (call : callfn) s i j s' : pstep call s (PAssign i j) = Ok s' ->
  exists h, nth_error (objs s) j = Some (Some h) /\ w_ s' = w_ s /\ updated s s' i (Some h).
Proof.
  cbn [pstep]. intros E. apply bind_Ok in E as [h [Eh E]]. apply the_obj_ok in Eh. apply bind_Ok in E as [h2 [Eh2 E]]. apply the_obj_ok in Eh2.
  destruct (put1 (objs s) i (Some h)) as [m [P [L [N O]]]]; [apply nth_error_Some; congruence|]. rewrite P in E. cbn [bind] in E. injection E as <-. exists h. unfold updated. cbn. auto.
Qed.
Lemma pcopy_inv (call : callfn) s i s' : pstep call s (PCopy i) = Ok s' ->
  exists h, nth_error (objs s) i = Some (Some h) /\ w_ s' = w_ s /\ objs s' = objs s ++ [Some h].
Proof. cbn [pstep]. intros E. apply bind_Ok in E as [h [Eh E]]. apply the_obj_ok in Eh. injection E as <-. exists h. auto. Qed.
Lemma prun_app call s a b : prun call s (a ++ b) = (s' <- prun call s a ;; prun call s' b).
Proof. revert s. induction a as [|c t IH]; intros s; cbn [app prun]; [reflexivity|]. destruct (pstep call s c); cbn [bind]; auto. Qed.

(** ** Shared and stale handles *)
Record releases (call : callfn) : Prop := {
  rel_mono : forall w h c w' h', call (w, h) c = Ok (w', h') -> incl (closed w) (closed w');
  rel_keep : forall w h c w' h', call (w, Some h) c = Ok (w', h') -> h' = Some h \/ In h (closed w');
  rel_stale : forall w h c w' h', In h (closed w) -> call (w, Some h) c = Ok (w', h') -> h' = Some h;
  rel_close : forall w h w' h', call (w, Some h) HClose = Ok (w', h') -> ~ In h (closed w) /\ In h (closed w') }.

Lemma w_open_mono w ok : closed (fst (w_open w ok)) = closed w.
Proof. destruct ok; reflexivity. Qed.
Lemma af_releases : releases af_hop.
Proof.
  split.
  - intros w h c w' h' E. destruct c; cbn [af_hop] in E.
    + unfold af_close in E. cbn [fst snd] in E. destruct h as [x|]; cbn [bind] in E.
      * destruct (w_close w x) as [w1| |] eqn:Q; try discriminate. cbn [bind fst] in E. injection E as E. apply w_close_ok in Q as [_ [_ Q]]. rewrite <- (f_equal fst E : fst (w_open w1 ok) = w'), w_open_mono, Q. intros z I. apply in_or_app; auto.
      * cbn [fst] in E. injection E as E. rewrite <- (f_equal fst E : fst (w_open w ok) = w'), w_open_mono. apply incl_refl.
    + unfold af_close in E. cbn [fst snd] in E. destruct h as [x|]; cbn [bind] in E; [|injection E as <- <-; apply incl_refl].
      destruct (w_close w x) as [w1| |] eqn:Q; try discriminate. cbn [bind] in E. injection E as <- <-. apply w_close_ok in Q as [_ [_ Q]]. rewrite Q. intros z I. apply in_or_app; auto.
    + cbn [fst snd] in E. destruct h as [x|]; [|discriminate]. destruct (liveb w x); try discriminate. injection E as <- <-. apply incl_refl.
  - intros w h c w' h' E. destruct c; cbn [af_hop] in E; unfold af_close in E; cbn [fst snd] in E.
    + destruct (w_close w h) as [w1| |] eqn:Q; try discriminate. cbn [bind fst] in E. injection E as E. right. apply w_close_ok in Q as [_ [_ Q]]. rewrite <- (f_equal fst E : fst (w_open w1 ok) = w'), w_open_mono, Q. apply in_or_app; right; left; auto.
    + destruct (w_close w h) as [w1| |] eqn:Q; try discriminate. cbn [bind] in E. injection E as <- <-. apply w_close_ok in Q as [_ [_ Q]]. right. rewrite Q. apply in_or_app; right; left; auto.
    + destruct (liveb w h); try discriminate. injection E as <- <-. auto.
  - intros w h c w' h' I E. assert (N : w_close w h = UB).
    { unfold w_close. destruct (liveb w h) eqn:L; auto. apply liveb_iff in L. destruct L. contradiction. }
    destruct c; cbn [af_hop] in E; unfold af_close in E; cbn [fst snd] in E; try (rewrite N in E; discriminate). destruct (liveb w h); try discriminate. injection E as _ <-. auto.
  - intros w h w' h' E. cbn [af_hop] in E. unfold af_close in E. cbn [fst snd] in E. destruct (w_close w h) as [w1| |] eqn:Q; try discriminate. cbn [bind] in E. injection E as <- <-. apply w_close_ok in Q as [L [_ Q]]. split; [apply L|]. rewrite Q. apply in_or_app; right; left; auto.
Qed.
Lemma snd_releases : releases snd_hop.
Proof.
  split.
  - intros w h c w' h' E. destruct c; cbn [snd_hop] in E.
    + unfold snd_close in E. cbn [fst snd] in E. destruct h as [x|]; cbn [bind] in E.
      * destruct (w_close w x) as [w1| |] eqn:Q; try discriminate. cbn [bind fst] in E. injection E as E. apply w_close_ok in Q as [_ [_ Q]]. rewrite <- (f_equal fst E : fst (w_open w1 ok) = w'), w_open_mono, Q. intros z I. apply in_or_app; auto.
      * cbn [fst] in E. injection E as E. rewrite <- (f_equal fst E : fst (w_open w ok) = w'), w_open_mono. apply incl_refl.
    + unfold snd_close in E. cbn [fst snd] in E. destruct h as [x|]; cbn [bind] in E; [|injection E as <- <-; apply incl_refl].
      destruct (w_close w x) as [w1| |] eqn:Q; try discriminate. cbn [bind] in E. injection E as <- <-. apply w_close_ok in Q as [_ [_ Q]]. rewrite Q. intros z I. apply in_or_app; auto.
    + cbn [fst snd] in E. destruct h as [x|]; [|injection E as <- <-; apply incl_refl]. destruct (liveb w x); try discriminate. injection E as <- <-. apply incl_refl.
  - intros w h c w' h' E. destruct c; cbn [snd_hop] in E; unfold snd_close in E; cbn [fst snd] in E.
    + destruct (w_close w h) as [w1| |] eqn:Q; try discriminate. cbn [bind fst] in E. injection E as E. right. apply w_close_ok in Q as [_ [_ Q]]. rewrite <- (f_equal fst E : fst (w_open w1 ok) = w'), w_open_mono, Q. apply in_or_app; right; left; auto.
    + destruct (w_close w h) as [w1| |] eqn:Q; try discriminate. cbn [bind] in E. injection E as <- <-. auto.
    + destruct (liveb w h); try discriminate. injection E as <- <-. auto.
  - intros w h c w' h' I E. assert (N : w_close w h = UB).
    { unfold w_close. destruct (liveb w h) eqn:L; auto. apply liveb_iff in L. destruct L. contradiction. }
    destruct c; cbn [snd_hop] in E; unfold snd_close in E; cbn [fst snd] in E; try (rewrite N in E; discriminate). destruct (liveb w h); try discriminate. injection E as _ <-. auto.
  - intros w h w' h' E. cbn [snd_hop] in E. unfold snd_close in E. cbn [fst snd] in E. destruct (w_close w h) as [w1| |] eqn:Q; try discriminate. cbn [bind] in E. injection E as <- <-. apply w_close_ok in Q as [L [_ Q]]. split; [apply L|]. rewrite Q. apply in_or_app; right; left; auto.
Qed.
Lemma src_releases : releases src_hop.
Proof.
  split.
  - intros w h c w' h' E. destruct c; cbn [src_hop] in E; cbn [fst snd] in E.
    + destruct h as [x|]; [discriminate|]. injection E as E. rewrite <- (f_equal fst E : fst (w_open w ok) = w'), w_open_mono. apply incl_refl.
    + destruct h as [x|]; cbn [bind] in E; [|injection E as <- <-; apply incl_refl].
      destruct (w_close w x) as [w1| |] eqn:Q; try discriminate. cbn [bind] in E. injection E as <- <-. apply w_close_ok in Q as [_ [_ Q]]. rewrite Q. intros z I. apply in_or_app; auto.
    + destruct h as [x|]; [|injection E as <- <-; apply incl_refl]. destruct (liveb w x); try discriminate. injection E as <- <-. apply incl_refl.
  - intros w h c w' h' E. destruct c; cbn [src_hop] in E; cbn [fst snd] in E; try discriminate.
    + destruct (w_close w h) as [w1| |] eqn:Q; try discriminate. cbn [bind] in E. injection E as <- <-. apply w_close_ok in Q as [_ [_ Q]]. right. rewrite Q. apply in_or_app; right; left; auto.
    + destruct (liveb w h); try discriminate. injection E as <- <-. auto.
  - intros w h c w' h' I E. assert (N : w_close w h = UB).
    { unfold w_close. destruct (liveb w h) eqn:L; auto. apply liveb_iff in L. destruct L. contradiction. }
    destruct c; cbn [src_hop] in E; cbn [fst snd] in E; try discriminate; try (rewrite N in E; discriminate). destruct (liveb w h); try discriminate. injection E as _ <-. auto.
  - intros w h w' h' E. cbn [src_hop] in E. cbn [fst snd] in E. destruct (w_close w h) as [w1| |] eqn:Q; try discriminate. cbn [bind] in E. injection E as <- <-. apply w_close_ok in Q as [L [_ Q]]. split; [apply L|]. rewrite Q. apply in_or_app; right; left; auto.
Qed.

(** Some living object holds a handle that is closed or held by another living object too. *)
Definition doomed (s : store_) : Prop := exists i h, holds s i h /\ (In h (closed (w_ s)) \/ exists j, j <> i /\ holds s j h).

Lemma holds_app s s' i h x : objs s' = objs s ++ [x] -> holds s i h -> holds s' i h.
Proof. unfold holds. intros -> H. rewrite nth_error_app1; auto. apply nth_error_Some. congruence. Qed.
Lemma holds_other s s' i j h o : updated s s' i o -> j <> i -> holds s j h -> holds s' j h.
Proof. unfold holds. intros [_ [_ U]] N H. rewrite U; auto. Qed.

Lemma doomed_step call : releases call -> forall s c s', assigns c = false -> doomed s -> pstep call s c = Ok s' -> doomed s'.
Proof.
  intros R s c s' A [i [h [Hi D]]] E. destruct c as [|k|k j|k o|k]; try discriminate.
  - injection E as <-. exists i, h. split; [eapply holds_app; [reflexivity|]; auto|]. destruct D as [D|[j [N D]]]; [left; auto|right; exists j; split; auto; eapply holds_app; [reflexivity|]; auto].
  - apply pcopy_inv in E as [x [_ [Ew Eo]]]. exists i, h. split; [eapply holds_app; eauto|]. rewrite Ew. destruct D as [D|[j [N D]]]; [left; auto|right; exists j; split; auto; eapply holds_app; eauto].
  - apply pcall_inv in E as [x [x' [Hx [Ec U]]]]. destruct (Nat.eq_dec k i) as [->|Nk].
    + unfold holds in Hi. rewrite Hx in Hi. injection Hi as ->. destruct D as [D|[j [N D]]].
      * pose proof (rel_stale _ R _ _ _ _ _ D Ec) as ->. exists i, h. split; [apply U|]. left. apply (rel_mono _ R _ _ _ _ _ Ec). auto.
      * destruct (rel_keep _ R _ _ _ _ _ Ec) as [->|I].
        -- exists i, h. split; [apply U|]. right. exists j. split; auto. eapply holds_other; eauto.
        -- exists j, h. split; [eapply holds_other; eauto|]. auto.
    + assert (Hi' : holds s' i h) by (eapply holds_other; eauto). destruct D as [D|[j [N D]]].
      * exists i, h. split; auto. left. apply (rel_mono _ R _ _ _ _ _ Ec). auto.
      * destruct (Nat.eq_dec k j) as [->|Nj].
        -- unfold holds in D. rewrite Hx in D. injection D as ->. destruct (rel_keep _ R _ _ _ _ _ Ec) as [->|I].
           ++ exists i, h. split; auto. right. exists j. split; auto. apply U.
           ++ exists i, h. split; auto.
        -- exists i, h. split; auto. right. exists j. split; auto. eapply holds_other; eauto.
  - apply pdestroy_inv in E as [x [x' [Hx [Ec U]]]]. destruct (Nat.eq_dec k i) as [->|Nk].
    + unfold holds in Hi. rewrite Hx in Hi. injection Hi as ->. destruct (rel_close _ R _ _ _ _ Ec) as [C1 C2]. destruct D as [D|[j [N D]]]; [contradiction|].
      exists j, h. split; [eapply holds_other; eauto|]. auto.
    + assert (Hi' : holds s' i h) by (eapply holds_other; eauto). destruct D as [D|[j [N D]]].
      * exists i, h. split; auto. left. apply (rel_mono _ R _ _ _ _ _ Ec). auto.
      * destruct (Nat.eq_dec k j) as [->|Nj].
        -- unfold holds in D. rewrite Hx in D. injection D as ->. destruct (rel_close _ R _ _ _ _ Ec) as [C1 C2]. exists i, h. split; auto.
        -- exists i, h. split; auto. right. exists j. split; auto. eapply holds_other; eauto.
Qed.
Lemma doomed_run call : releases call -> forall cs s s', forallb (fun c => negb (assigns c)) cs = true -> doomed s -> prun call s cs = Ok s' -> doomed s'.
Proof.
  intros R. induction cs as [|c t IH]; intros s s' A D E; cbn [prun] in E; [injection E as <-; auto|].
  cbn [forallb] in A. apply andb_true_iff in A as [A1 A2]. apply negb_true_iff in A1. apply bind_Ok in E as [s1 [E1 E]]. apply (IH s1 s'); auto. eapply doomed_step; eauto.
Qed.
Lemma doomed_not_done s : doomed s -> ~ all_destroyed s.
Proof. intros [i [h [H _]]] A. unfold holds in H. apply nth_error_In in H. apply A in H. discriminate. Qed.
Lemma copy_dooms call s i h s' : holds s i h -> pstep call s (PCopy i) = Ok s' -> doomed s'.
Proof.
  intros H E. apply pcopy_inv in E as [x [Hx [_ Eo]]]. unfold holds in H. rewrite H in Hx. injection Hx as <-.
  exists i, h. split; [eapply holds_app; eauto|]. right. exists (length (objs s)). split.
  - assert (i < length (objs s)) by (apply nth_error_Some; congruence). lia.
  - unfold holds. rewrite Eo, nth_error_app2 by lia. rewrite Nat.sub_diag. reflexivity.
Qed.

(** ** Lost handles *)
Definition lost (s : store_) (h : nat) : Prop := In h (opened (w_ s)) /\ ~ In h (closed (w_ s)) /\ (forall i, ~ holds s i h) /\ opened (w_ s) = seq 0 (length (opened (w_ s))).
Record hands (call : callfn) : Prop := {
  hand_opened : forall w h c w' h', opened w = seq 0 (length (opened w)) -> call (w, h) c = Ok (w', h') -> opened w' = seq 0 (length (opened w')) /\ incl (opened w) (opened w');
  hand_new : forall w h c w' h' x, call (w, h) c = Ok (w', h') -> h' = Some x -> h = Some x \/ x = length (opened w);
  hand_closed : forall w h c w' h' x, call (w, h) c = Ok (w', h') -> In x (closed w') -> In x (closed w) \/ h = Some x }.
Lemma w_open_opened w ok : opened w = seq 0 (length (opened w)) -> opened (fst (w_open w ok)) = seq 0 (length (opened (fst (w_open w ok)))) /\ incl (opened w) (opened (fst (w_open w ok))).
Proof.
  intros H. destruct ok; cbn; [|split; auto; apply incl_refl]. split; [|intros x I; apply in_or_app; auto].
  rewrite app_length, seq_app. cbn [length plus seq]. rewrite <- H. reflexivity.
Qed.
Lemma w_open_new w ok x : snd (w_open w ok) = Some x -> x = length (opened w).
Proof. destruct ok; cbn; intros E; [injection E as <-; auto|discriminate]. Qed.
Ltac opening E := match type of E with Ok (w_open ?w ?ok) = Ok (?w', ?h') => let F := fresh in let G := fresh in assert (F : fst (w_open w ok) = w') by (injection E as ->; reflexivity); assert (G : snd (w_open w ok) = h') by (injection E as ->; reflexivity) end.
Lemma af_hands : hands af_hop.
Proof.
  split.
  - intros w h c w' h' O E. destruct c; cbn [af_hop] in E; unfold af_close in E; cbn [fst snd] in E.
    + destruct h as [x|]; cbn [bind fst] in E.
      * destruct (w_close w x) as [w1| |] eqn:Q; try discriminate. cbn [bind fst] in E. apply w_close_ok in Q as [_ [Q _]]. opening E. rewrite <- H. rewrite <- Q. apply w_open_opened. rewrite Q. auto.
      * opening E. rewrite <- H. apply w_open_opened; auto.
    + destruct h as [x|]; cbn [bind] in E; [|injection E as <- <-; split; auto; apply incl_refl]. destruct (w_close w x) as [w1| |] eqn:Q; try discriminate. cbn [bind] in E. injection E as <- <-. apply w_close_ok in Q as [_ [Q _]]. rewrite Q. split; auto; apply incl_refl.
    + destruct h as [x|]; [|discriminate]. destruct (liveb w x); try discriminate. injection E as <- <-. split; auto; apply incl_refl.
  - intros w h c w' h' x E ->. destruct c; cbn [af_hop] in E; unfold af_close in E; cbn [fst snd] in E.
    + destruct h as [y|]; cbn [bind fst] in E.
      * destruct (w_close w y) as [w1| |] eqn:Q; try discriminate. cbn [bind fst] in E. apply w_close_ok in Q as [_ [Q _]]. opening E. apply w_open_new in H0. rewrite Q in H0. auto.
      * opening E. apply w_open_new in H0. auto.
    + destruct h as [y|]; cbn [bind] in E; [|discriminate]. destruct (w_close w y) as [w1| |] eqn:Q; try discriminate.
    + destruct h as [y|]; [|discriminate]. destruct (liveb w y); try discriminate. injection E as <- <-. auto.
  - intros w h c w' h' x E I. destruct c; cbn [af_hop] in E; unfold af_close in E; cbn [fst snd] in E.
    + destruct h as [y|]; cbn [bind fst] in E.
      * destruct (w_close w y) as [w1| |] eqn:Q; try discriminate. cbn [bind fst] in E. apply w_close_ok in Q as [_ [_ Q]]. opening E. rewrite <- H, w_open_mono, Q in I. apply in_app_or in I as [I|[->|[]]]; auto.
      * opening E. rewrite <- H, w_open_mono in I. auto.
    + destruct h as [y|]; cbn [bind] in E; [|injection E as <- <-; auto]. destruct (w_close w y) as [w1| |] eqn:Q; try discriminate. cbn [bind] in E. injection E as <- <-. apply w_close_ok in Q as [_ [_ Q]]. rewrite Q in I. apply in_app_or in I as [I|[->|[]]]; auto.
    + destruct h as [y|]; [|discriminate]. destruct (liveb w y); try discriminate. injection E as <- <-. auto.
Qed.
Lemma lost_step call : hands call -> forall s c s' h, lost s h -> pstep call s c = Ok s' -> lost s' h.
Proof.
  intros K s c s' h [O [N [H Q]]] E. assert (Hh : h < length (opened (w_ s))) by (rewrite Q in O; apply in_seq in O; lia). destruct c as [|k|k j|k o|k].
  - injection E as <-. unfold lost. cbn [w_ objs]. repeat split; auto. intros i Hi. unfold holds in Hi. cbn [objs] in Hi. apply (H i).
    destruct (Nat.lt_ge_cases i (length (objs s))) as [L|L]; [rewrite nth_error_app1 in Hi by auto; auto|]. rewrite nth_error_app2 in Hi by auto. destruct (i - length (objs s)) as [|[|z]]; discriminate.
  - apply pcopy_inv in E as [x [Hx [Ew Eo]]]. unfold lost. rewrite Ew. repeat split; auto. intros i Hi. unfold holds in Hi. rewrite Eo in Hi.
    destruct (Nat.lt_ge_cases i (length (objs s))) as [L|L]; [rewrite nth_error_app1 in Hi by auto; apply (H i); auto|]. rewrite nth_error_app2 in Hi by auto. destruct (i - length (objs s)) as [|[|z]]; try discriminate. cbn in Hi. injection Hi as ->. apply (H k Hx).
  - apply passign_inv in E as [x [Hx [Ew U]]]. unfold lost. rewrite Ew. repeat split; auto. intros i Hi. destruct (Nat.eq_dec i k) as [->|Ni].
    + destruct U as [U _]. unfold holds in Hi. rewrite U in Hi. injection Hi as ->. apply (H j Hx).
    + destruct U as [_ [_ U]]. unfold holds in Hi. rewrite U in Hi by auto. apply (H i Hi).
  - apply pcall_inv in E as [x [x' [Hx [Ec U]]]]. destruct (hand_opened _ K _ _ _ _ _ Q Ec) as [Q' I']. unfold lost. repeat split; auto.
    + intros I. destruct (hand_closed _ K _ _ _ _ _ _ Ec I) as [I2| ->]; auto. apply (H k Hx).
    + intros i Hi. destruct (Nat.eq_dec i k) as [->|Ni].
      * destruct U as [U _]. unfold holds in Hi. rewrite U in Hi. injection Hi as ->. destruct (hand_new _ K _ _ _ _ _ _ Ec eq_refl) as [->| ->]; [apply (H k Hx)|lia].
      * destruct U as [_ [_ U]]. unfold holds in Hi. rewrite U in Hi by auto. apply (H i Hi).
  - apply pdestroy_inv in E as [x [x' [Hx [Ec U]]]]. destruct (hand_opened _ K _ _ _ _ _ Q Ec) as [Q' I']. unfold lost. repeat split; auto.
    + intros I. destruct (hand_closed _ K _ _ _ _ _ _ Ec I) as [I2| ->]; auto. apply (H k Hx).
    + intros i Hi. destruct (Nat.eq_dec i k) as [->|Ni].
      * destruct U as [U _]. unfold holds in Hi. rewrite U in Hi. discriminate.
      * destruct U as [_ [_ U]]. unfold holds in Hi. rewrite U in Hi by auto. apply (H i Hi).
Qed.
Lemma lost_run call : hands call -> forall cs s s' h, lost s h -> prun call s cs = Ok s' -> lost s' h.
Proof. intros K. induction cs as [|c t IH]; intros s s' h L E; cbn [prun] in E; [injection E as <-; auto|]. apply bind_Ok in E as [s1 [E1 E]]. apply (IH s1 s'); auto. eapply lost_step; eauto. Qed.

(** ** Programs without copies (audiofile decoder) *)
Record tidy (s : store_) : Prop := {
  t_opened : opened (w_ s) = seq 0 (length (opened (w_ s)));
  t_nodup : NoDup (closed (w_ s));
  t_sub : incl (closed (w_ s)) (opened (w_ s));
  t_live : forall i h, holds s i h -> live (w_ s) h;
  t_single : forall i j h, holds s i h -> holds s j h -> i = j;
  t_all : forall h, In h (opened (w_ s)) -> In h (closed (w_ s)) \/ exists i, holds s i h }.
Lemma tidy_fresh : tidy pfresh.
Proof.
  split; cbn; auto.
  - constructor.
  - intros x [].
  - intros i h H. destruct i; discriminate.
  - intros i j h H. destruct i; discriminate.
Qed.

(** Replacing what object [k] holds after closing it and possibly opening another handle. *)
Lemma NoDup_snoc {A} (l : list A) x : NoDup l -> ~ In x l -> NoDup (l ++ [x]).
Proof.
  intros H N. induction H as [|y l Hy Hl IH]; cbn [app]; [constructor; auto; constructor|].
  constructor; [|apply IH; intros I; apply N; right; auto]. intros I. apply in_app_or in I as [I|[->|[]]]; auto. apply N; left; auto.
Qed.
(** The object forgets its (now closed) handle: the situation after af_close. *)
Lemma tidy_closed s k h w1 s1 : tidy s -> nth_error (objs s) k = Some (Some h) -> af_close (w_ s, h) = Ok (w1, None) ->
  w_ s1 = w1 -> (updated s s1 k (Some None) \/ updated s s1 k None) -> tidy s1.
Proof.
  intros T Hk E Ew U. assert (UO : forall i, i <> k -> nth_error (objs s1) i = nth_error (objs s) i) by (destruct U as [U|U]; apply U).
  assert (UK : forall x, ~ holds s1 k x) by (intros x; unfold holds; destruct U as [[U _]|[U _]]; rewrite U; discriminate).
  assert (HO : forall i x, holds s1 i x -> i <> k /\ holds s i x).
  { intros i x Hx. destruct (Nat.eq_dec i k) as [->|N]; [destruct (UK x Hx)|]. split; auto. unfold holds in *. rewrite <- UO; auto. }
  unfold af_close in E. cbn [fst snd] in E. destruct h as [h|].
  - destruct (w_close (w_ s) h) as [w2| |] eqn:Q; try discriminate. cbn [bind] in E. injection E as ->. apply w_close_ok in Q as [L [Q1 Q2]]. split; rewrite ?Ew, ?Q1, ?Q2.
    + apply T.
    + apply NoDup_snoc; [apply T|apply L].
    + intros x I. apply in_app_or in I as [I|[->|[]]]; [apply T; auto|apply L].
    + intros i x Hx. apply HO in Hx as [N Hx]. destruct (t_live _ T _ _ Hx) as [A B]. unfold live. rewrite ?Ew, Q1, Q2. split; auto. intros I. apply in_app_or in I as [I|[->|[]]]; auto. apply N. apply (t_single _ T _ _ _ Hx Hk).
    + intros i j x Hx Hy. apply HO in Hx as [_ Hx]. apply HO in Hy as [_ Hy]. eapply t_single; eauto.
    + intros x I. apply (t_all _ T) in I as [I|[i I]]; [left; apply in_or_app; auto|]. destruct (Nat.eq_dec i k) as [->|N].
      * unfold holds in I. rewrite Hk in I. injection I as ->. left. apply in_or_app; right; left; auto.
      * right. exists i. unfold holds in *. rewrite UO; auto.
  - injection E as <-. split; rewrite ?Ew; try apply T.
    + intros i x Hx. apply HO in Hx as [_ Hx]. unfold live. rewrite ?Ew. eapply t_live; eauto.
    + intros i j x Hx Hy. apply HO in Hx as [_ Hx]. apply HO in Hy as [_ Hy]. eapply t_single; eauto.
    + intros x I. apply (t_all _ T) in I as [I|[i I]]; [left; auto|]. destruct (Nat.eq_dec i k) as [->|N].
      * unfold holds in I. rewrite Hk in I. discriminate.
      * right. exists i. unfold holds in *. rewrite UO; auto.
Qed.
Lemma af_close_tidy s k h : tidy s -> nth_error (objs s) k = Some (Some h) -> exists w1, af_close (w_ s, h) = Ok (w1, None).
Proof.
  intros T Hk. unfold af_close. cbn [fst snd]. destruct h as [h|]; [|eauto]. rewrite w_close_live by (eapply t_live; eauto). cbn [bind]. eauto.
Qed.
Lemma tidy_opened s k ok s1 : tidy s -> nth_error (objs s) k = Some (Some None) -> w_ s1 = fst (w_open (w_ s) ok) -> updated s s1 k (Some (snd (w_open (w_ s) ok))) -> tidy s1.
Proof.
  intros T Hk Ew U. destruct (w_open_opened (w_ s) ok (t_opened _ T)) as [O1 O2]. destruct ok.
  - cbn [w_open fst snd] in *. set (n := length (opened (w_ s))) in *.
    assert (Fresh : ~ In n (opened (w_ s))) by (rewrite (t_opened _ T); fold n; intros I; apply in_seq in I; lia).
    assert (Nc : ~ In n (closed (w_ s))) by (intros I; apply Fresh, (t_sub _ T); auto).
    destruct U as [U1 [U2 U3]].
    assert (HO : forall i x, holds s1 i x -> (i = k /\ x = n) \/ (i <> k /\ holds s i x)).
    { intros i x Hx. destruct (Nat.eq_dec i k) as [->|N]; [left; unfold holds in Hx; rewrite U1 in Hx; injection Hx as <-; auto|]. right. split; auto. unfold holds in *. rewrite <- U3; auto. }
    split; rewrite ?Ew; cbn [opened closed].
    + exact O1.
    + apply T.
    + intros x I. apply in_or_app; left. apply T; auto.
    + intros i x Hx. unfold live. rewrite ?Ew. cbn [opened closed]. apply HO in Hx as [[-> ->]|[N Hx]]; [split; auto; apply in_or_app; right; left; auto|]. destruct (t_live _ T _ _ Hx). split; auto with datatypes.
    + intros i j x Hx Hy. apply HO in Hx as [[-> ->]|[N Hx]]; apply HO in Hy as [[-> Hy]|[M Hy]]; auto.
      * destruct (t_live _ T _ _ Hy). contradiction.
      * subst x. destruct (t_live _ T _ _ Hx). contradiction.
      * eapply t_single; eauto.
    + intros x I. apply in_app_or in I as [I|[<-|[]]]; [|right; exists k; exact U1]. apply (t_all _ T) in I as [I|[i I]]; [left; auto|right; exists i]. unfold holds. rewrite U3; auto. intros ->. unfold holds in I. rewrite Hk in I. discriminate.
  - cbn [w_open fst snd] in *. apply (tidy_closed s k None (w_ s) s1); auto.
Qed.
Lemma tidy_step s c s' : tidy s -> copies c = false -> pstep af_hop s c = Ok s' -> tidy s'.
Proof.
  intros T C E. destruct c as [|k|k j|k o|k]; try discriminate.
  - injection E as <-. assert (HO : forall i x, holds (mkStore (w_ s) (objs s ++ [Some None])) i x -> holds s i x).
    { unfold holds. cbn [objs]. intros i x Hi. destruct (Nat.lt_ge_cases i (length (objs s))) as [L|L]; [rewrite nth_error_app1 in Hi by auto; auto|]. rewrite nth_error_app2 in Hi by auto. destruct (i - length (objs s)) as [|[|z]]; discriminate. }
    split; cbn [w_]; try apply T.
    + intros i h Hi. apply (t_live _ T i). auto.
    + intros i j h Hi Hj. eapply t_single; eauto.
    + intros h I. apply (t_all _ T) in I as [I|[i I]]; [left; auto|right; exists i]. eapply holds_app; [reflexivity|auto].
  - apply pcall_inv in E as [h [h' [Hk [Ec U]]]]. destruct (af_close_tidy s k h T Hk) as [w1 Ew1]. destruct o as [ok| |]; cbn [af_hop] in Ec.
    + rewrite Ew1 in Ec. cbn [bind fst] in Ec. opening Ec.
      destruct (put1 (objs s) k (Some None)) as [m [_ [Lm [Nm Om]]]]; [apply nth_error_Some; congruence|].
      set (s1 := mkStore w1 m). assert (T1 : tidy s1).
      { eapply tidy_closed; eauto. left. split; [|split]; auto. }
      apply (tidy_opened s1 k ok s'); auto. cbn [w_ s1]. rewrite H0. destruct U as [U1 [U2 U3]]. split; [|split]; auto; cbn [objs s1]; [congruence|]. intros j Nj. rewrite U3, Om; auto.
    + rewrite Ew1 in Ec. injection Ec as -> <-. eapply tidy_closed; eauto.
    + cbn [fst snd] in Ec. destruct h as [h|]; [|discriminate]. destruct (liveb (w_ s) h); try discriminate. injection Ec as Ew <-.
      assert (SO : forall i, nth_error (objs s') i = nth_error (objs s) i) by (intros i; destruct U as [U1 [_ U3]]; destruct (Nat.eq_dec i k) as [->|N]; [congruence|auto]).
      assert (SH : forall i x, holds s' i x <-> holds s i x) by (intros; unfold holds; rewrite SO; tauto).
      split; rewrite <- ?Ew; try apply T.
      * intros i x Hx. apply SH in Hx. rewrite <- ?Ew. eapply t_live; eauto.
      * intros i j x Hx Hy. apply SH in Hx, Hy. eapply t_single; eauto.
      * intros x I. apply (t_all _ T) in I as [I|[i I]]; [auto|right; exists i; apply SH; auto].
  - apply pdestroy_inv in E as [h [h' [Hk [Ec U]]]]. destruct (af_close_tidy s k h T Hk) as [w1 Ew1]. cbn [af_hop] in Ec. rewrite Ew1 in Ec. injection Ec as -> <-. eapply tidy_closed; eauto.
Qed.
Lemma tidy_run cs : forall s s', tidy s -> forallb (fun c => negb (copies c)) cs = true -> prun af_hop s cs = Ok s' -> tidy s'.
Proof.
  induction cs as [|c t IH]; intros s s' T C E; cbn [prun] in E; [injection E as <-; auto|]. cbn [forallb] in C. apply andb_true_iff in C as [C1 C2]. apply negb_true_iff in C1.
  apply bind_Ok in E as [s1 [E1 E]]. apply (IH s1 s'); auto. eapply tidy_step; eauto.
Qed.
Lemma tidy_progress s c : tidy s -> copies c = false -> (exists s', pstep af_hop s c = Ok s') \/ (misuse s c /\ pstep af_hop s c = UB).
Proof.
  intros T C. destruct c as [|k|k j|k o|k]; try discriminate.
  - left. eexists. reflexivity.
  - destruct (nth_error (objs s) k) as [[h|]|] eqn:Hk.
    2:{ right. assert (D : dead s k) by (intros x; congruence). split; [left; auto|]. cbn [pstep]. rewrite the_obj_ub by auto. reflexivity. }
    2:{ right. assert (D : dead s k) by (intros x; congruence). split; [left; auto|]. cbn [pstep]. rewrite the_obj_ub by auto. reflexivity. }
    destruct (af_close_tidy s k h T Hk) as [w1 Ew1]. cbn [pstep]. rewrite (proj2 (the_obj_ok s k h) Hk). cbn [bind].
    assert (P : forall v, exists m, put (objs s) k [v] = Ok m) by (intros v; destruct (put1 (objs s) k v) as [m [P _]]; [apply nth_error_Some; congruence|eauto]).
    destruct o as [ok| |]; cbn [af_hop].
    + left. rewrite Ew1. cbn [bind fst]. destruct (P (Some (snd (w_open w1 ok)))) as [m Em]. rewrite Em. cbn [bind]. eauto.
    + left. rewrite Ew1. cbn [bind fst snd]. destruct (P (Some None)) as [m Em]. rewrite Em. cbn [bind]. eauto.
    + cbn [fst snd]. destruct h as [h|]; [left|right; split; auto; right; auto]. pose proof (t_live _ T _ _ Hk) as L. apply liveb_iff in L. rewrite L. cbn [bind fst snd]. destruct (P (Some (Some h))) as [m Em]. rewrite Em. cbn [bind]. eauto.
  - destruct (nth_error (objs s) k) as [[h|]|] eqn:Hk.
    2:{ right. assert (D : dead s k) by (intros x; congruence). split; auto. cbn [pstep]. rewrite the_obj_ub by auto. reflexivity. }
    2:{ right. assert (D : dead s k) by (intros x; congruence). split; auto. cbn [pstep]. rewrite the_obj_ub by auto. reflexivity. }
    left. destruct (af_close_tidy s k h T Hk) as [w1 Ew1]. cbn [pstep]. rewrite (proj2 (the_obj_ok s k h) Hk). cbn [bind af_hop]. rewrite Ew1. cbn [bind fst snd].
    destruct (put1 (objs s) k None) as [m [P _]]; [apply nth_error_Some; congruence|]. rewrite P. cbn [bind]. eauto.
Qed.
Lemma tidy_done s : tidy s -> all_destroyed s -> each_closed_once (w_ s).
Proof.
  intros T A. split; [apply T|]. intros h. split; [|apply T]. intros I. apply (t_all _ T) in I as [I|[i I]]; auto. unfold holds in I. apply nth_error_In in I. apply A in I. discriminate.
Qed.
