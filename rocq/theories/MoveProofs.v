(** Proofs about several ring buffers sharing a heap. *)
From Verif Require Import Base BaseProofs RingModel RingSpec RingProofs MoveModel MoveSpec.
Local Open Scope res_scope.

Section Lists.
Context {B : Type}.
Lemma update_length (l : list B) i b : length (update l i b) = length l.
Proof. revert i; induction l as [|x t IH]; intros [|i]; simpl; auto. Qed.
Lemma nth_update (l : list B) i b j :
  nth_error (update l i b) j = if j =? i then match nth_error l j with Some _ => Some b | None => None end else nth_error l j.
Proof.
  revert i j; induction l as [|x t IH]; intros [|i] [|j]; simpl; try reflexivity.
  - destruct (j =? i); reflexivity.
  - apply IH.
Qed.
Lemma nth_update_eq (l : list B) i b x : nth_error l i = Some x -> nth_error (update l i b) i = Some b.
Proof. intros H. rewrite nth_update, Nat.eqb_refl, H. reflexivity. Qed.
Lemma nth_update_neq (l : list B) i b j : j <> i -> nth_error (update l i b) j = nth_error l j.
Proof. intros H. rewrite nth_update. destruct (Nat.eqb_spec j i); [contradiction|reflexivity]. Qed.
Lemma store_update (l : list B) i b : i < length l -> store l i b = Ok (update l i b).
Proof.
  revert i; induction l as [|x t IH]; intros [|i] H; simpl in *; try lia; [reflexivity|].
  rewrite IH by lia. reflexivity.
Qed.
Lemma nth_lt (l : list B) i x : nth_error l i = Some x -> i < length l.
Proof. intros H. apply nth_error_Some. congruence. Qed.
Lemma nth_app_new (l : list B) x : nth_error (l ++ [x]) (length l) = Some x.
Proof. rewrite nth_error_app2, Nat.sub_diag by lia. reflexivity. Qed.
Lemma nth_app_inv (l : list B) x i y : nth_error (l ++ [x]) i = Some y ->
  (i < length l /\ nth_error l i = Some y) \/ (i = length l /\ y = x).
Proof.
  intros H. destruct (lt_dec i (length l)) as [L|L].
  - left. rewrite nth_error_app1 in H by lia. auto.
  - right. pose proof (nth_lt _ _ _ H) as G. rewrite app_length in G. cbn [length] in G.
    assert (i = length l) by lia. subst i. rewrite nth_app_new in H. split; congruence.
Qed.
End Lists.

Section MoveProofs.
Context {A : Type}.
Implicit Types (w : world A) (b : obj) (l : list (slot A)).

Variable K : obj -> list A -> Prop.
Variable U : obj -> Prop.

Definition ring_of b (c : list A) : ring A := mkRing c (ssize (span_ b)) (scap (span_ b)) (sfront (span_ b)).

Definition slot_ok w (s : slot A) (ob : option obj) : Prop :=
  match s, ob with
  | Dead, None => True
  | Unusable, Some b => exists c, get_block w (own b) = Ok c /\ K b c /\ U b
  | Holds q, Some b => exists c, get_block w (own b) = Ok c /\ K b c /\ base (span_ b) = own b /\ sim (ring_of b c) q
  | _, _ => False
  end.

Definition exclusive (os : list (option obj)) : Prop :=
  forall i j bi bj a, nth_error os i = Some (Some bi) -> nth_error os j = Some (Some bj) ->
    own bi = Some a -> own bj = Some a -> i = j.

Definition inv w l : Prop :=
  length (objs w) = length l /\ exclusive (objs w) /\
  forall i s ob, nth_error l i = Some s -> nth_error (objs w) i = Some ob -> slot_ok w s ob.

Lemma alive_inv w l o s : inv w l -> alive l o = Some s ->
  nth_error l o = Some s /\ s <> Dead /\ exists b, nth_error (objs w) o = Some (Some b) /\ get_obj w o = Ok b /\ slot_ok w s (Some b).
Proof.
  intros [L [E S]] H. unfold alive in H.
  destruct (nth_error l o) as [s'|] eqn:Hn; [|discriminate].
  assert (s' = s /\ s <> Dead) as [-> Hd] by (destruct s'; inversion H; split; congruence).
  split; [reflexivity|]. split; [exact Hd|].
  destruct (nth_error (objs w) o) as [ob|] eqn:Ho.
  2:{ apply nth_error_None in Ho. pose proof (nth_lt _ _ _ Hn). lia. }
  specialize (S _ _ _ Hn Ho). destruct ob as [b|].
  - exists b. split; [reflexivity|]. split; [|exact S]. unfold get_obj, load. rewrite Ho. reflexivity.
  - destruct s; simpl in S; try contradiction.
Qed.

Lemma slot_block w s b : slot_ok w s (Some b) -> exists c, get_block w (own b) = Ok c /\ K b c.
Proof. destruct s; simpl; [intros []|intros [c [H [G _]]]|intros [c [H [G _]]]]; exists c; auto. Qed.

Lemma get_block_lt w a c : get_block w (Some a) = Ok c -> nth_error (blocks w) a = Some (Some c) /\ a < length (blocks w).
Proof.
  unfold get_block, load. destruct (nth_error (blocks w) a) as [[x|]|] eqn:E; simpl; intros H; try discriminate.
  injection H as ->. split; [reflexivity|]. eapply nth_lt; eauto.
Qed.

(** Blocks other than the touched one read the same. *)
Lemma get_block_frame bl os os' a x p : p <> Some a ->
  get_block (mkWorld (update bl a x) os') p = get_block (@mkWorld A bl os) p.
Proof.
  intros H. destruct p as [i|]; [|reflexivity]. simpl. unfold load.
  rewrite nth_update_neq by congruence. reflexivity.
Qed.
Lemma get_block_objs bl os os' p : get_block (@mkWorld A bl os) p = get_block (mkWorld bl os') p.
Proof. reflexivity. Qed.
Lemma get_block_app bl os os' x p c : get_block (@mkWorld A bl os) p = Ok c -> get_block (mkWorld (bl ++ [x]) os') p = Ok c.
Proof.
  destruct p as [i|]; [|auto]. intros H. destruct (get_block_lt _ _ _ H) as [G L]. simpl in G, L.
  simpl. unfold load. rewrite nth_error_app1 by exact L. rewrite G. reflexivity.
Qed.
Lemma slot_ok_mono w w' s ob : slot_ok w s ob ->
  (forall b c, ob = Some b -> get_block w (own b) = Ok c -> get_block w' (own b) = Ok c) -> slot_ok w' s ob.
Proof.
  destruct s, ob as [b|]; simpl; auto.
  - intros [c [H [G T]]] M. exists c. split; [apply M; auto|auto].
  - intros [c [H [G T]]] M. exists c. split; [apply M; auto|auto].
Qed.

(** Object [o] is given new contents in its own storage. *)
Lemma inv_write w l o b s s' c0 b' c' : inv w l -> nth_error l o = Some s ->
  nth_error (objs w) o = Some (Some b) -> own b' = own b -> get_block w (own b) = Ok c0 ->
  (own b = None -> c' = []) ->
  (forall w', get_block w' (own b) = Ok c' -> slot_ok w' s' (Some b')) ->
  exists w1 w2, set_block w (own b) (Some c') = Ok w1 /\ set_obj w1 o (Some b') = Ok w2 /\ inv w2 (update l o s').
Proof.
  intros [L [E S]] Hl Ho Hown Hb Hnil Hok.
  pose proof (nth_lt _ _ _ Ho) as Lo. pose proof (nth_lt _ _ _ Hl) as Ll.
  set (os' := update (objs w) o (Some b')).
  assert (EX : exclusive os').
  { intros i j bi bj a Hi Hj Oi Oj. unfold os' in *. rewrite nth_update in Hi, Hj.
    destruct (Nat.eqb_spec i o) as [->|Ni]; destruct (Nat.eqb_spec j o) as [->|Nj]; auto.
    - rewrite Ho in Hi. injection Hi as <-. rewrite Hown in Oi. eapply E; eauto.
    - rewrite Ho in Hj. injection Hj as <-. rewrite Hown in Oj. eapply E; eauto.
    - eapply E; eauto. }
  destruct (own b) as [a|] eqn:Ha.
  - destruct (get_block_lt _ _ _ Hb) as [Ga La].
    exists (mkWorld (update (blocks w) a (Some c')) (objs w)), (mkWorld (update (blocks w) a (Some c')) os').
    split; [unfold set_block; rewrite store_update by exact La; reflexivity|].
    split; [unfold set_obj; cbn [objs blocks]; rewrite store_update by exact Lo; reflexivity|].
    split; [cbn [objs]; unfold os'; rewrite !update_length; exact L|]. split; [exact EX|].
    intros i si ob Hi Hoi. cbn [objs] in Hoi. unfold os' in Hoi. rewrite nth_update in Hi. rewrite nth_update in Hoi.
    destruct (Nat.eqb_spec i o) as [->|Ni].
    + rewrite Hl in Hi. rewrite Ho in Hoi. injection Hi as <-. injection Hoi as <-. apply Hok.
      simpl. unfold load. erewrite nth_update_eq by exact Ga. reflexivity.
    + apply (slot_ok_mono w); [eapply S; eauto|]. intros bi ci Eq G. subst ob.
      rewrite <- G. destruct w as [bl os]. apply get_block_frame. intros F. apply Ni. eapply E; eauto.
  - exists w, (mkWorld (blocks w) os'). split; [reflexivity|].
    split; [unfold set_obj; rewrite store_update by exact Lo; reflexivity|].
    split; [cbn [objs]; unfold os'; rewrite !update_length; exact L|]. split; [exact EX|].
    intros i si ob Hi Hoi. cbn [objs] in Hoi. unfold os' in Hoi. rewrite nth_update in Hi. rewrite nth_update in Hoi.
    destruct (Nat.eqb_spec i o) as [->|Ni].
    + rewrite Hl in Hi. rewrite Ho in Hoi. injection Hi as <-. injection Hoi as <-. apply Hok.
      rewrite Hnil by reflexivity. reflexivity.
    + apply (slot_ok_mono w); [eapply S; eauto|]. intros bi ci Eq G. rewrite <- G. destruct w; reflexivity.
Qed.

(** A new object with a block of its own. *)
Lemma inv_new w l b c s : inv w l -> own b = Some (length (blocks w)) ->
  (forall w', get_block w' (own b) = Ok c -> slot_ok w' s (Some b)) ->
  inv (add_obj (add_block w c) b) (l ++ [s]).
Proof.
  intros [L [E S]] Hown Hok. split; [simpl; rewrite !app_length; simpl; lia|]. split.
  - intros i j bi bj a Hi Hj Oi Oj. simpl in Hi, Hj.
    assert (old : forall k bk, k < length (objs w) -> nth_error (objs w) k = Some (Some bk) -> own bk <> Some (length (blocks w))).
    { intros k bk Lk Hk F. destruct (nth_error l k) as [sk|] eqn:Hlk.
      2:{ apply nth_error_None in Hlk. lia. }
      destruct (slot_block _ _ _ (S _ _ _ Hlk Hk)) as [ck [G _]]. rewrite F in G.
      destruct (get_block_lt _ _ _ G). lia. }
    destruct (nth_app_inv _ _ _ _ Hi) as [[Li Gi]|[-> Gi]]; destruct (nth_app_inv _ _ _ _ Hj) as [[Lj Gj]|[-> Gj]]; auto.
    + eapply E; eauto.
    + injection Gj as ->. rewrite Hown in Oj. injection Oj as <-. exfalso. exact (old i bi Li Gi Oi).
    + injection Gi as ->. rewrite Hown in Oi. injection Oi as <-. exfalso. exact (old j bj Lj Gj Oj).
  - intros i si ob Hi Hoi. simpl in Hoi.
    destruct (nth_app_inv _ _ _ _ Hoi) as [[Li Gi]|[Ei Gi]].
    + rewrite nth_error_app1 in Hi by lia. apply (slot_ok_mono w); [eapply S; eauto|].
      intros bi ci _ G. destruct w as [bl os]. apply (get_block_app _ os). exact G.
    + rewrite Ei, L in Hi. rewrite nth_app_new in Hi. injection Hi as <-. subst ob.
      apply Hok. rewrite Hown. simpl. unfold load. rewrite nth_app_new. reflexivity.
Qed.

(** An object is destroyed or loses its storage for good. *)
Lemma inv_free w l o b s s' ob' : inv w l -> nth_error l o = Some s ->
  nth_error (objs w) o = Some (Some b) -> (exists c, get_block w (own b) = Ok c) ->
  (match ob' with None => s' = Dead | Some b' => own b' = None /\ forall w', slot_ok w' s' (Some b') end) ->
  exists w1 w2, set_block w (own b) None = Ok w1 /\ set_obj w1 o ob' = Ok w2 /\ inv w2 (update l o s').
Proof.
  intros [L [E S]] Hl Ho [c0 Hb] Hok.
  pose proof (nth_lt _ _ _ Ho) as Lo. pose proof (nth_lt _ _ _ Hl) as Ll.
  set (os' := update (objs w) o ob').
  assert (EX : exclusive os').
  { intros i j bi bj a Hi Hj Oi Oj. unfold os' in *. rewrite nth_update in Hi, Hj.
    assert (NO : forall bk, Some ob' = Some (Some bk) -> own bk = Some a -> False).
    { intros bk Hk Ok_. injection Hk as ->. destruct Hok as [F _]. congruence. }
    destruct (Nat.eqb_spec i o) as [->|Ni].
    { rewrite Ho in Hi. exfalso. exact (NO _ Hi Oi). }
    destruct (Nat.eqb_spec j o) as [->|Nj].
    { rewrite Ho in Hj. exfalso. exact (NO _ Hj Oj). }
    eapply E; eauto. }
  assert (FIN : forall bl', (forall i bi ci, i <> o -> nth_error (objs w) i = Some (Some bi) -> get_block w (own bi) = Ok ci ->
             get_block (mkWorld bl' os') (own bi) = Ok ci) -> inv (mkWorld bl' os') (update l o s')).
  { intros bl' FR. split; [cbn [objs]; unfold os'; rewrite !update_length; exact L|]. split; [exact EX|].
    intros i si ob Hi Hoi. cbn [objs] in Hoi. unfold os' in Hoi. rewrite nth_update in Hi. rewrite nth_update in Hoi.
    destruct (Nat.eqb_spec i o) as [->|Ni].
    - rewrite Hl in Hi. rewrite Ho in Hoi. injection Hi as <-. injection Hoi as <-.
      destruct ob' as [b'|]; [apply Hok|subst s'; exact I].
    - apply (slot_ok_mono w); [eapply S; eauto|]. intros bi ci -> G. eapply FR; eauto. }
  destruct (own b) as [a|] eqn:Ha.
  - destruct (get_block_lt _ _ _ Hb) as [Ga La].
    exists (mkWorld (update (blocks w) a None) (objs w)), (mkWorld (update (blocks w) a None) os').
    split; [unfold set_block; rewrite store_update by exact La; reflexivity|].
    split; [unfold set_obj; cbn [objs blocks]; rewrite store_update by exact Lo; reflexivity|].
    apply FIN. intros i bi ci Ni Hi G. rewrite <- G. destruct w as [bl os]. apply get_block_frame.
    intros F. apply Ni. eapply E; eauto.
  - exists w, (mkWorld (blocks w) os'). split; [reflexivity|].
    split; [unfold set_obj; rewrite store_update by exact Lo; reflexivity|].
    apply FIN. intros i bi ci _ _ G. rewrite <- G. destruct w; reflexivity.
Qed.

Lemma contents_ok w l o q : inv w l -> alive l o = Some (Holds q) -> contents w o = Ok (items q).
Proof.
  intros I Hal. destruct (alive_inv _ _ _ _ I Hal) as [_ [_ [b [_ [Hg [c [Hb [_ [Hbase Hsim]]]]]]]]].
  unfold contents. rewrite Hg. simpl. unfold view. rewrite Hbase, Hb. simpl.
  apply iterate_repr. exact (proj1 Hsim).
Qed.

(** Ring calls act on one object only. *)
Lemma ring_call_ok (HK : forall b b' c c', own b' = own b -> length c' = length c -> K b c -> K b' c')
  d w l o q c q' out : inv w l -> alive l o = Some (Holds q) ->
  (forall n, c <> Resize n) -> dstep q c = Some (q', out) ->
  exists w', ring_call d w o c = Ok (w', out) /\ inv w' (update l o (Holds q')).
Proof.
  intros I Hal Hres Hd. destruct (alive_inv _ _ _ _ I Hal) as [Hl [_ [b [Ho [Hg [c0 [Hb [HKc [Hbase Hsim]]]]]]]]].
  pose proof (step_sim d _ _ c Hsim) as ST. rewrite Hd in ST. destruct ST as [r' [ES SIM']].
  assert (CAP : dcap q' = dcap q).
  { clear - Hd Hres. destruct c; simpl in Hd.
    - destruct (dcap q =? 0); [discriminate|]. injection Hd as <- <-. reflexivity.
    - destruct (dcap q =? 0); [discriminate|]. injection Hd as <- <-. reflexivity.
    - destruct (items q); [discriminate|]. injection Hd as <- <-. reflexivity.
    - destruct (rev (items q)); [discriminate|]. injection Hd as <- <-. reflexivity.
    - injection Hd as <- <-. reflexivity.
    - exfalso. eapply Hres; reflexivity. }
  assert (LEN : length (cells r') = length c0).
  { destruct Hsim as [[[W _] _] C1]. destruct SIM' as [[[W' _] _] C2]. simpl in W. rewrite W', C2, CAP, <- C1. symmetry. exact W. }
  destruct (inv_write w l o b (Holds q) (Holds q') c0
             (mkObj (own b) (mkSpan (base (span_ b)) (rsize r') (rcap r') (rfront r'))) (cells r')) as [w1 [w2 [E1 [E2 I2]]]]; auto.
  - intros F. rewrite F in Hb. simpl in Hb. injection Hb as <-. destruct (cells r'); [reflexivity|simpl in LEN; discriminate].
  - intros w' G. simpl. exists (cells r'). split; [exact G|]. split; [eapply HK; [|exact LEN|exact HKc]; reflexivity|].
    split; [exact Hbase|]. destruct r'; exact SIM'.
  - exists w2. split; [|exact I2]. unfold ring_call. rewrite Hg. simpl. unfold view. rewrite Hbase, Hb. simpl.
    unfold ring_of in ES. rewrite ES. simpl. rewrite E1. simpl. rewrite Hbase in E2. rewrite E2. reflexivity.
Qed.

End MoveProofs.
