(** Proofs about the lifetime of ring_buffer and fixed_ring_buffer objects. *)
From Verif Require Import Base BaseProofs RingModel RingSpec RingProofs MoveModel MoveSpec MoveProofs.
Local Open Scope res_scope.

Lemma update_update {B} (l : list B) i a b : update (update l i a) i b = update l i b.
Proof. revert i; induction l as [|x t IH]; intros [|i]; simpl; auto. f_equal; apply IH. Qed.
Lemma update_app_new {B} (l : list B) x y : update (l ++ [x]) (length l) y = l ++ [y].
Proof. induction l as [|z t IH]; simpl; [reflexivity|f_equal; exact IH]. Qed.
Lemma update_app_old {B} (l : list B) x i y : i < length l -> update (l ++ [x]) i y = update l i y ++ [x].
Proof. revert i; induction l as [|z t IH]; intros [|i] H; simpl in *; try lia; [reflexivity|f_equal; apply IH; lia]. Qed.

Section Run.
Context {A : Type}.
Variables (I : world A -> list (slot A) -> Prop)
  (cstep : world A -> cmd A -> res (world A * option A)) (sstep : list (slot A) -> cmd A -> option (list (slot A) * option A)).
Hypothesis H : forall w l k l' out, I w l -> sstep l k = Some (l', out) -> exists w', cstep w k = Ok (w', out) /\ I w' l'.
Lemma exec_inv ks : forall w l l' outs, I w l -> hrun sstep l ks = Some (l', outs) ->
  exists w', exec cstep w ks = Ok (w', outs) /\ I w' l'.
Proof.
  induction ks as [|k t IH]; intros w l l' outs Hi Hr; simpl in *.
  - injection Hr as <- <-. eauto.
  - destruct (sstep l k) as [[l1 out]|] eqn:E1; [|discriminate].
    destruct (hrun sstep l1 t) as [[l2 outs2]|] eqn:E2; [|discriminate]. injection Hr as <- <-.
    destruct (H _ _ _ _ _ Hi E1) as [w1 [S1 I1]]. destruct (IH _ _ _ _ I1 E2) as [w2 [S2 I2]].
    exists w2. rewrite S1. simpl. rewrite S2. simpl. split; [reflexivity|exact I2].
Qed.
End Run.

Section Vector.
Context {A : Type}.
Implicit Types (w : world A) (l : list (slot A)).

Definition KV (_ : obj) (_ : list A) : Prop := True.
Definition UV (b : obj) : Prop := own b = None.
Notation vinv := (inv KV UV).

Lemma vinv_transfer w l t s bt x b : vinv w l -> t <> s -> nth_error l t = Some (@Unusable A) ->
  nth_error (objs w) t = Some (Some bt) -> own bt = None -> nth_error l s = Some x -> x <> Dead ->
  nth_error (objs w) s = Some (Some b) ->
  vinv (mkWorld (blocks w) (update (update (objs w) t (Some b)) s (Some (mkObj None (span_ b))))) (update (update l t x) s (@Unusable A)).
Proof.
  intros [L [E S]] Nts Ht Hot Hown Hs Hx Hos.
  split; [cbn [objs]; rewrite !update_length; exact L|]. split.
  - intros i j bi bj a Hi Hj Oi Oj. cbn [objs] in Hi, Hj. rewrite !nth_update in Hi, Hj.
    destruct (Nat.eqb_spec i s) as [->|Ni].
    { destruct (Nat.eqb_spec s t); [congruence|]. rewrite Hos in Hi. injection Hi as <-. discriminate Oi. }
    destruct (Nat.eqb_spec j s) as [->|Nj].
    { destruct (Nat.eqb_spec s t); [congruence|]. rewrite Hos in Hj. injection Hj as <-. discriminate Oj. }
    destruct (Nat.eqb_spec i t) as [->|Ni']; destruct (Nat.eqb_spec j t) as [->|Nj']; auto.
    + rewrite Hot in Hi. injection Hi as <-. exfalso. apply Nj. eapply E; eauto.
    + rewrite Hot in Hj. injection Hj as <-. exfalso. apply Ni. eapply E; eauto.
    + eapply E; eauto.
  - intros i si ob Hi Hoi. cbn [objs] in Hoi. rewrite !nth_update in Hi. rewrite !nth_update in Hoi.
    assert (M : forall s0 ob0, slot_ok KV UV w s0 ob0 ->
      slot_ok KV UV (mkWorld (blocks w) (update (update (objs w) t (Some b)) s (Some (mkObj None (span_ b))))) s0 ob0).
    { intros s0 ob0 G. apply (slot_ok_mono _ _ w); [exact G|]. intros b0 c0 _ F. rewrite <- F. destruct w; reflexivity. }
    destruct (Nat.eqb_spec i s) as [->|Ni].
    + destruct (Nat.eqb_spec s t); [congruence|]. rewrite Hs in Hi. rewrite Hos in Hoi.
      injection Hi as <-. injection Hoi as <-. simpl. exists []. split; [reflexivity|]. split; [exact I|reflexivity].
    + destruct (Nat.eqb_spec i t) as [->|Nt].
      * rewrite Ht in Hi. rewrite Hot in Hoi. injection Hi as <-. injection Hoi as <-. apply M. eapply S; eauto.
      * apply M. eapply S; eauto.
Qed.

Lemma vinv_default w l sp : vinv w l -> vinv (add_obj w (mkObj None sp)) (l ++ [@Unusable A]).
Proof.
  intros [L [E S]]. split; [simpl; rewrite !app_length; simpl; lia|]. split.
  - intros i j bi bj a Hi Hj Oi Oj. simpl in Hi, Hj.
    destruct (nth_app_inv _ _ _ _ Hi) as [[Li Gi]|[-> Gi]]; [|injection Gi as ->; discriminate].
    destruct (nth_app_inv _ _ _ _ Hj) as [[Lj Gj]|[-> Gj]]; [|injection Gj as ->; discriminate].
    eapply E; eauto.
  - intros i si ob Hi Hoi. simpl in Hoi.
    destruct (nth_app_inv _ _ _ _ Hoi) as [[Li Gi]|[Ei Gi]].
    + rewrite nth_error_app1 in Hi by lia. apply (slot_ok_mono _ _ w); [eapply S; eauto|].
      intros b c _ G. rewrite <- G. destruct w; reflexivity.
    + rewrite Ei, L in Hi. rewrite nth_app_new in Hi. injection Hi as <-. subst ob.
      simpl. exists []. split; [reflexivity|]. split; [exact I|reflexivity].
Qed.

Lemma sim_empty : sim (mkRing (@nil A) 0 0 0) (mkDeque 0 []).
Proof. split; [|reflexivity]. unfold repr, wf; simpl. repeat split; try lia. Qed.

(** [update] on the spec side after a write, as a slot-level step. *)
Lemma rb_step_ok d w l k l' out : vinv w l -> hstep l k = Some (l', out) ->
  exists w', rb_step d w k = Ok (w', out) /\ vinv w' l'.
Proof.
  intros HI Hs. destruct k as [n|n v| |s|t s|o|o c]; simpl in Hs.
  - injection Hs as <- <-. eexists. split; [reflexivity|]. unfold rb_new. apply inv_new; auto.
    intros w' G. simpl. eexists. split; [exact G|]. split; [exact I|]. split; [reflexivity|].
    unfold ring_of; simpl. apply (sim_new d n).
  - injection Hs as <- <-. eexists. split; [reflexivity|]. unfold rb_filled. apply inv_new; auto.
    intros w' G. simpl. eexists. split; [exact G|]. split; [exact I|]. split; [reflexivity|].
    unfold ring_of; simpl. apply (sim_filled v n).
  - injection Hs as <- <-. eexists. split; [reflexivity|]. unfold rb_default.
    pose proof (vinv_default w l (mkSpan None 0 0 0) HI) as [L [E S]].
    split; [rewrite L, !app_length; reflexivity|]. split; [exact E|].
    intros i si ob Hi Hoi. simpl in Hoi.
    destruct (nth_app_inv _ _ _ _ Hi) as [[Li Gi]|[-> ->]].
    + apply (S i); [|exact Hoi]. rewrite nth_error_app1 by exact Li. exact Gi.
    + destruct HI as [L0 _]. rewrite <- L0, nth_app_new in Hoi. injection Hoi as <-. simpl.
      exists []. split; [reflexivity|]. split; [exact I|]. split; [reflexivity|]. apply sim_empty.
  - destruct (alive l s) as [x|] eqn:Ha; [|discriminate]. injection Hs as <- <-.
    destruct (alive_inv _ _ _ _ _ _ HI Ha) as [Hl [Hd [b [Ho [Hg Hok]]]]].
    pose proof (nth_lt _ _ _ Ho) as Lo. pose proof (nth_lt _ _ _ Hl) as Ll. destruct (HI) as [L _].
    unfold rb_step, rb_move. rewrite Hg. simpl. unfold set_obj. rewrite store_update by exact Lo. simpl.
    eexists. split; [reflexivity|].
    pose proof (vinv_default w l (span_ b) HI) as HD.
    assert (T := vinv_transfer _ _ (length l) s (mkObj None (span_ b)) x b HD).
    cbn [add_obj objs blocks] in T.
    assert (Q1 : update (objs w ++ [Some (mkObj None (span_ b))]) (length l) (Some b) = objs w ++ [Some b])
      by (rewrite <- L; apply update_app_new).
    rewrite Q1, update_app_new in T. rewrite (update_app_old l) in T by lia. rewrite (update_app_old (objs w)) in T by lia.
    replace (mkObj (own b) (span_ b)) with b by (destruct b; reflexivity). unfold add_obj. cbn [objs blocks]. apply T; auto.
    + lia.
    + apply nth_app_new.
    + rewrite <- L. apply nth_app_new.
    + rewrite nth_error_app1 by lia. exact Hl.
    + rewrite nth_error_app1 by lia. exact Ho.
  - destruct (Nat.eqb_spec t s) as [|Nts]; [discriminate|].
    destruct (alive l t) as [y|] eqn:Hat; [|discriminate]. destruct (alive l s) as [x|] eqn:Has; [|discriminate].
    injection Hs as <- <-.
    destruct (alive_inv _ _ _ _ _ _ HI Hat) as [Hlt [Hdt [bt [Hot [Hgt Hokt]]]]].
    destruct (alive_inv _ _ _ _ _ _ HI Has) as [Hls [Hds [bs [Hos [Hgs Hoks]]]]].
    destruct (slot_block _ _ _ _ _ Hokt) as [ct [Hbt _]].
    destruct (inv_free KV UV w l t bt y (@Unusable A) (Some (mkObj None (span_ bs)))) as [w1 [w2 [E1 [E2 I2]]]]; eauto.
    { split; [reflexivity|]. intros w'. exists []. split; [reflexivity|]. split; [exact I|reflexivity]. }
    assert (O1 : objs w1 = objs w).
    { unfold set_block in E1. destruct (own bt) as [a|]; [|injection E1 as <-; reflexivity].
      destruct (get_block_lt _ _ _ Hbt) as [_ La]. rewrite store_update in E1 by exact La. simpl in E1.
      injection E1 as <-. reflexivity. }
    pose proof (nth_lt _ _ _ Hot) as Lt. pose proof (nth_lt _ _ _ Hos) as Ls.
    unfold set_obj in E2. rewrite O1, store_update in E2 by exact Lt. simpl in E2. injection E2 as <-.
    assert (T := vinv_transfer _ _ t s (mkObj None (span_ bs)) x bs I2 Nts).
    cbn [objs blocks] in T. rewrite !update_update in T.
    unfold rb_step, rb_assign. destruct (Nat.eqb_spec t s); [congruence|]. rewrite Hgt, Hgs. simpl. rewrite E1. simpl.
    unfold set_obj. rewrite O1, store_update by exact Lt. simpl. rewrite store_update by (rewrite update_length; exact Ls). simpl.
    replace (mkObj (own bs) (span_ bs)) with bs by (destruct bs; reflexivity).
    eexists. split; [reflexivity|]. apply T; auto.
    + eapply nth_update_eq; eauto.
    + eapply nth_update_eq; eauto.
    + rewrite nth_update_neq by auto. exact Hls.
    + rewrite nth_update_neq by auto. exact Hos.
  - destruct (alive l o) as [x|] eqn:Ha; [|discriminate]. injection Hs as <- <-.
    destruct (alive_inv _ _ _ _ _ _ HI Ha) as [Hl [Hd [b [Ho [Hg Hok]]]]].
    destruct (slot_block _ _ _ _ _ Hok) as [c [Hb _]].
    destruct (inv_free KV UV w l o b x (@Dead A) None) as [w1 [w2 [E1 [E2 I2]]]]; eauto.
    unfold rb_step, rb_destroy. rewrite Hg. simpl. rewrite E1. simpl. rewrite E2. simpl. eauto.
  - assert (HK : forall (b b' : obj) (c c' : list A), own b' = own b -> length c' = length c -> KV b c -> KV b' c') by (intros; exact I).
    destruct (alive l o) as [x|] eqn:Ha; [|discriminate].
    destruct (alive_inv _ _ _ _ _ _ HI Ha) as [Hl [Hd [b [Ho [Hg Hok]]]]].
    pose proof (nth_lt _ _ _ Ho) as Lo.
    (* resize and clear act on the object's own storage, whatever its state *)
    assert (RS : forall n, exists w', rb_resize d w o n = Ok w' /\ vinv w' (update l o (Holds (mkDeque n [])))).
    { intros n. unfold rb_resize. rewrite Hg. simpl. destruct (slot_block _ _ _ _ _ Hok) as [c0 [Hb _]].
      destruct (own b) as [a|] eqn:Hown.
      - rewrite Hb. cbn [bind].
        destruct (inv_write KV UV w l o b x (Holds (mkDeque n [])) c0 (mkObj (Some a) (mkSpan (Some a) 0 n 0))
                   (firstn n c0 ++ repeat d (n - length c0))) as [w1 [w2 [E1 [E2 I2]]]]; auto; try congruence.
        + intros w' G. rewrite Hown in G. simpl. eexists. split; [exact G|]. split; [exact I|]. split; [reflexivity|].
          unfold ring_of; simpl. split; [|reflexivity]. unfold repr, wf; simpl.
          rewrite app_length, firstn_length, repeat_length. repeat split; try lia.
        + rewrite Hown in E1. rewrite E1. simpl. rewrite E2. eauto.
      - unfold set_obj. cbn [add_block objs blocks]. rewrite store_update by exact Lo. simpl.
        eexists. split; [reflexivity|].
        destruct (inv_free KV UV w l o b x (@Unusable A) (Some (mkObj None (span_ b)))) as [w1 [w2 [E1 [E2 I2]]]]; [exact HI|exact Hl|exact Ho|exists c0; rewrite Hown; exact Hb| |].
        { split; [reflexivity|]. intros w'. exists []. split; [reflexivity|]. split; [exact I|reflexivity]. }
        rewrite Hown in E1. simpl in E1. injection E1 as <-. unfold set_obj in E2. rewrite store_update in E2 by exact Lo.
        simpl in E2. injection E2 as <-.
        set (nb := mkObj (Some (length (blocks w))) (mkSpan (Some (length (blocks w))) 0 n 0)).
        pose proof (inv_new KV UV _ _ nb (repeat d n) (Holds (mkDeque n [])) I2 eq_refl) as HN.
        cbn [add_obj add_block objs blocks] in HN.
        assert (HN2 := HN ltac:(intros w' G; simpl; exists (repeat d n); split; [exact G|]; split; [exact I|]; split; [reflexivity|]; apply (sim_new d n))).
        clear HN. destruct HN2 as [L2 [X2 S2]]. cbn [objs] in L2, X2. rewrite !app_length in L2. cbn [length] in L2.
        split; [cbn [objs]; rewrite !update_length; exact (proj1 HI)|]. split.
        + intros i j bi bj a' Hi Hj Oi Oj. cbn [objs] in Hi, Hj. rewrite nth_update in Hi, Hj.
          assert (up : forall k bk, k <> o -> nth_error (objs w) k = Some (Some bk) ->
                    nth_error (update (objs w) o (Some (mkObj None (span_ b))) ++ [Some nb]) k = Some (Some bk)).
          { intros k bk Nk Hk. rewrite nth_error_app1 by (rewrite update_length; eapply nth_lt; eauto).
            rewrite nth_update_neq by exact Nk. exact Hk. }
          assert (last_ : nth_error (update (objs w) o (Some (mkObj None (span_ b))) ++ [Some nb]) (length (objs w)) = Some (Some nb)).
          { rewrite <- (update_length (objs w) o (Some (mkObj None (span_ b)))). apply nth_app_new. }
          destruct (Nat.eqb_spec i o) as [->|Ni]; destruct (Nat.eqb_spec j o) as [->|Nj]; auto.
          * rewrite Ho in Hi. injection Hi as <-. exfalso.
            pose proof (X2 _ _ _ _ _ last_ (up _ _ Nj Hj) Oi Oj) as F. pose proof (nth_lt _ _ _ Hj). lia.
          * rewrite Ho in Hj. injection Hj as <-. exfalso.
            pose proof (X2 _ _ _ _ _ last_ (up _ _ Ni Hi) Oj Oi) as F. pose proof (nth_lt _ _ _ Hi). lia.
          * exact (X2 _ _ _ _ _ (up _ _ Ni Hi) (up _ _ Nj Hj) Oi Oj).
        + intros i si ob Hi Hoi. cbn [objs] in Hoi. rewrite nth_update in Hi. rewrite nth_update in Hoi.
          destruct (Nat.eqb_spec i o) as [->|Ni].
          * rewrite Hl in Hi. rewrite Ho in Hoi. injection Hi as <-. injection Hoi as <-. simpl.
            exists (repeat d n). split; [unfold load; rewrite nth_app_new; reflexivity|].
            split; [exact I|]. split; [reflexivity|]. apply (sim_new d n).
          * assert (G : slot_ok KV UV (mkWorld (blocks w ++ [Some (repeat d n)]) (update (objs w) o (Some (mkObj None (span_ b))) ++ [Some nb])) si ob).
            { apply (S2 i).
              - rewrite nth_error_app1 by (rewrite update_length; eapply nth_lt; eauto). rewrite nth_update_neq by exact Ni. exact Hi.
              - cbn [objs add_obj add_block blocks]. rewrite nth_error_app1 by (rewrite update_length; eapply nth_lt; eauto). rewrite nth_update_neq by exact Ni. exact Hoi. }
            apply (slot_ok_mono _ _ _ _ _ _ G). intros b0 c1 _ F. exact F. }
    assert (CL : forall m, (forall c0, get_block w (own b) = Ok c0 -> length c0 = m) ->
       exists w', clear_call w o = Ok w' /\ vinv w' (update l o (Holds (mkDeque m [])))).
    { intros m Hm. unfold clear_call. rewrite Hg. simpl. destruct (slot_block _ _ _ _ _ Hok) as [c0 [Hb _]]. rewrite Hb. simpl.
      destruct (inv_write KV UV w l o b x (Holds (mkDeque m [])) c0 (mkObj (own b) (mkSpan (own b) 0 (length c0) 0)) c0) as [w1 [w2 [E1 [E2 I2]]]]; auto.
      - intros F. rewrite F in Hb. simpl in Hb. congruence.
      - intros w' G. simpl. exists c0. split; [exact G|]. split; [exact I|]. split; [reflexivity|].
        unfold ring_of; simpl. rewrite (Hm _ Hb). split; [|reflexivity]. unfold repr, wf; simpl. rewrite (Hm _ Hb). repeat split; try lia.
      - assert (W1 : w1 = w).
        { destruct (own b) as [a|] eqn:Hown; [|simpl in E1; congruence].
          destruct (get_block_lt _ _ _ Hb) as [Ga La]. unfold set_block in E1. rewrite store_update in E1 by exact La.
          simpl in E1. injection E1 as <-. destruct w as [bl os]. simpl in *. f_equal.
          apply nth_error_ext_eq. intros i. rewrite nth_update. destruct (Nat.eqb_spec i a) as [->|]; [rewrite Ga|]; reflexivity. }
        subst w1. rewrite E2. eauto. }
    destruct x as [| |q]; [congruence| |].
    + destruct Hok as [c0 [Hb [_ Hu]]]. unfold UV in Hu.
      destruct c; try discriminate; injection Hs as <- <-.
      * destruct (CL 0) as [w' [E I']].
        { intros c1 F. rewrite Hu in F. simpl in F. injection F as <-. reflexivity. }
        exists w'. unfold rb_step. rewrite E. auto.
      * destruct (RS n) as [w' [E I']]. exists w'. unfold rb_step. rewrite E. auto.
    + destruct (dstep q c) as [[q' out']|] eqn:Hd'; [|discriminate]. injection Hs as <- <-.
      destruct c as [a|a| | | |n].
      * eapply ring_call_ok; eauto. discriminate.
      * eapply ring_call_ok; eauto. discriminate.
      * eapply ring_call_ok; eauto. discriminate.
      * eapply ring_call_ok; eauto. discriminate.
      * simpl in Hd'. injection Hd' as <- <-. destruct (CL (dcap q)) as [w' [E I']].
        { destruct Hok as [c0 [Hb [_ [_ [[[W _] _] C]]]]]. intros c1 F. simpl in *. congruence. }
        exists w'. unfold rb_step. rewrite E. auto.
      * simpl in Hd'. injection Hd' as <- <-. destruct (RS n) as [w' [E I']]. exists w'. unfold rb_step. rewrite E. auto.
Qed.

Lemma vinv_empty : vinv (@empty_world A) [].
Proof.
  split; [reflexivity|]. split; [intros [|i] j bi bj a H; discriminate H|intros [|i] s ob H; discriminate H].
Qed.
End Vector.

Section Fixed.
Context {A : Type}.
Variable n : nat.
Implicit Types (w : world A) (l : list (slot A)).

Definition KF (b : obj) (c : list A) : Prop := own b <> None /\ length c = n.
Definition UF (b : obj) : Prop := True.
Notation finv := (inv KF UF).

Lemma sim_fresh (c : list A) : length c = n -> sim (mkRing c 0 n 0) (mkDeque n []).
Proof. intros H. split; [|reflexivity]. unfold repr, wf; simpl. repeat split; try lia. Qed.

Lemma fx_step_ok d w l k l' out : finv w l -> fixed_actual_hstep n l k = Some (l', out) ->
  exists w', fx_step d n w k = Ok (w', out) /\ finv w' l'.
Proof.
  intros HI Hs. destruct k as [m|m v| |s|t s|o|o c]; try discriminate Hs.
  - cbn [fixed_actual_hstep fixed_hstep] in Hs. injection Hs as <- <-. eexists. split; [reflexivity|]. unfold fx_new. apply inv_new; auto.
    intros w' G. simpl. eexists. split; [exact G|]. split; [split; [discriminate|apply repeat_length]|]. split; [reflexivity|].
    unfold ring_of; simpl. apply sim_fresh, repeat_length.
  - simpl in Hs. destruct (alive l s) as [x|] eqn:Ha; [|discriminate]. injection Hs as <- <-.
    destruct (alive_inv _ _ _ _ _ _ HI Ha) as [Hl [Hd [b [Ho [Hg Hok]]]]].
    destruct (slot_block _ _ _ _ _ Hok) as [c [Hb [Hk1 Hk2]]].
    unfold fx_step, fx_move. rewrite Hg. simpl. rewrite Hb. simpl. eexists. split; [reflexivity|].
    apply inv_new; auto. intros w' G. simpl. exists c. split; [exact G|]. split; [|exact I]. split; [discriminate|exact Hk2].
  - simpl in Hs. destruct (alive l t) as [y|] eqn:Hat; [|discriminate]. destruct (alive l s) as [x|] eqn:Has; [|discriminate].
    injection Hs as <- <-.
    destruct (alive_inv _ _ _ _ _ _ HI Hat) as [Hlt [Hdt [bt [Hot [Hgt Hokt]]]]].
    destruct (alive_inv _ _ _ _ _ _ HI Has) as [Hls [Hds [bs [Hos [Hgs Hoks]]]]].
    destruct (slot_block _ _ _ _ _ Hokt) as [ct [Hbt [Kt1 Kt2]]]. destruct (slot_block _ _ _ _ _ Hoks) as [cs [Hbs [Ks1 Ks2]]].
    unfold fx_step, fx_assign. rewrite Hgt, Hgs. cbn [bind]. rewrite Hbs. cbn [bind].
    destruct (inv_write KF UF w l t bt y (if t =? s then y else Unusable) ct (mkObj (own bt) (span_ bs)) cs) as [w1 [w2 [E1 [E2 I2]]]]; auto.
    + intros F. contradiction.
    + intros w' G. destruct (Nat.eqb_spec t s) as [->|Nts].
      * assert (bt = bs) as -> by congruence. assert (ct = cs) as -> by congruence.
        destruct bs as [ob sb]. apply (slot_ok_mono _ _ w); [exact Hokt|]. intros b0 c0 F Gb. injection F as <-. congruence.
      * simpl. exists cs. split; [exact G|]. split; [|exact I]. split; auto.
    + rewrite E1. cbn [bind]. rewrite E2. cbn [bind]. eexists. split; [reflexivity|].
      destruct (Nat.eqb_spec t s) as [->|Nts]; [|exact I2].
      replace (update l s y) with l in I2; [exact I2|]. apply nth_error_ext_eq. intros i. rewrite nth_update.
      destruct (Nat.eqb_spec i s) as [->|]; [rewrite Hlt|]; reflexivity.
  - simpl in Hs. destruct (alive l o) as [x|] eqn:Ha; [|discriminate]. injection Hs as <- <-.
    destruct (alive_inv _ _ _ _ _ _ HI Ha) as [Hl [Hd [b [Ho [Hg Hok]]]]].
    destruct (slot_block _ _ _ _ _ Hok) as [c [Hb _]].
    destruct (inv_free KF UF w l o b x (@Dead A) None) as [w1 [w2 [E1 [E2 I2]]]]; eauto.
    unfold fx_step, fx_destroy. rewrite Hg. simpl. rewrite E1. simpl. rewrite E2. simpl. eauto.
  - assert (HK : forall (b b' : obj) (c c' : list A), own b' = own b -> length c' = length c -> KF b c -> KF b' c').
    { intros b b' c0 c' H1 H2 [H3 H4]. split; congruence. }
    assert (RC : forall q, alive l o = Some (Holds q) -> c <> Clear -> (forall m, c <> Resize m) ->
       (exists q', dstep q c = Some (q', out) /\ l' = update l o (Holds q')) ->
       exists w', ring_call d w o c = Ok (w', out) /\ finv w' l').
    { intros q Ha Hc Hr [q' [Hd ->]]. eapply ring_call_ok; eauto. }
    destruct c as [a|a| | | |m]; [| | | | |discriminate Hs].
    5:{ cbn [fixed_actual_hstep fixed_hstep] in Hs. destruct (alive l o) as [x|] eqn:Ha; [|discriminate]. injection Hs as <- <-.
        destruct (alive_inv _ _ _ _ _ _ HI Ha) as [Hl [Hd [b [Ho [Hg Hok]]]]].
        destruct (slot_block _ _ _ _ _ Hok) as [c0 [Hb [K1 K2]]].
        unfold fx_step, clear_call. rewrite Hg. simpl. rewrite Hb. simpl.
        destruct (inv_write KF UF w l o b x (Holds (mkDeque n [])) c0 (mkObj (own b) (mkSpan (own b) 0 (length c0) 0)) c0) as [w1 [w2 [E1 [E2 I2]]]]; auto.
        - intros F. contradiction.
        - intros w' G. simpl. exists c0. split; [exact G|]. split; [split; auto|]. split; [reflexivity|].
          unfold ring_of; simpl. rewrite K2. apply sim_fresh; exact K2.
        - destruct (own b) as [a|] eqn:Hown; [|congruence].
          destruct (get_block_lt _ _ _ Hb) as [Ga La]. unfold set_block in E1. rewrite store_update in E1 by exact La.
          simpl in E1. injection E1 as <-.
          assert (U1 : update (blocks w) a (Some c0) = blocks w).
          { apply nth_error_ext_eq. intros i. rewrite nth_update. destruct (Nat.eqb_spec i a) as [->|]; [rewrite Ga|]; reflexivity. }
          rewrite U1 in E2. destruct w as [bl os]. simpl in *. rewrite E2. simpl. eauto. }
    all: unfold fixed_actual_hstep, fixed_hstep, hstep in Hs; destruct (alive l o) as [[| |q]|] eqn:Ha; try discriminate.
    all: match type of Hs with context [dstep ?q ?c] => destruct (dstep q c) as [[q' out']|] eqn:Hd; [|discriminate] end;
      injection Hs as <- <-; unfold fx_step; eapply RC; eauto; discriminate.
Qed.

Lemma finv_empty : finv (@empty_world A) [].
Proof.
  split; [reflexivity|]. split; [intros [|i] j bi bj a H; discriminate H|intros [|i] s ob H; discriminate H].
Qed.
End Fixed.
