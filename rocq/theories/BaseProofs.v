From Verif Require Import Base.

Lemma store_ok {A} (l : list A) i v :
  i < length l -> exists l', store l i v = Ok l' /\ length l' = length l /\
    nth_error l' i = Some v /\ forall j, j <> i -> nth_error l' j = nth_error l j.
Proof.
  revert i; induction l as [|x l IH]; intros i Hi; simpl in Hi; [lia|].
  destruct i as [|i].
  - exists (v :: l); simpl; repeat split; auto.
    intros [|j] Hj; [congruence|reflexivity].
  - destruct (IH i ltac:(lia)) as [l' [E [Hl [Hn Ho]]]].
    exists (x :: l'); simpl; rewrite E; unfold rmap; simpl; repeat split; auto.
    intros [|j] Hj; [reflexivity|apply Ho; lia].
Qed.

Lemma store_ub {A} (l : list A) i v : length l <= i -> store l i v = UB.
Proof.
  revert i; induction l as [|x l IH]; intros i Hi; simpl in *; [destruct i; reflexivity|].
  destruct i as [|i]; [lia|]. rewrite IH by lia. reflexivity.
Qed.

Lemma load_ok {A} (l : list A) i : i < length l -> exists a, load l i = Ok a /\ nth_error l i = Some a.
Proof.
  intros Hi. unfold load. destruct (nth_error l i) eqn:E; eauto.
  apply nth_error_None in E. lia.
Qed.

Lemma nth_error_ext_eq {A} (l l' : list A) :
  (forall i, nth_error l i = nth_error l' i) -> l = l'.
Proof.
  revert l'; induction l as [|x l IH]; intros [|y l'] H.
  - reflexivity.
  - specialize (H 0); discriminate.
  - specialize (H 0); discriminate.
  - f_equal; [specialize (H 0); simpl in H; congruence|].
    apply IH; intros i; exact (H (S i)).
Qed.

Lemma bind_Ok {A B} (x : res A) (f : A -> res B) b :
  bind x f = Ok b <-> exists a, x = Ok a /\ f a = Ok b.
Proof.
  destruct x; simpl; split; intros H; try discriminate; eauto;
    destruct H as [a' [E H]]; inversion E; subst; auto.
Qed.

Lemma mapM_Ok {A B} (f : A -> B) (l : list A) : mapM (fun x => Ok (f x)) l = Ok (map f l).
Proof. induction l as [|x l IH]; simpl; [reflexivity|]. rewrite IH. reflexivity. Qed.

Lemma mapM_ext {A B} (f g : A -> res B) (l : list A) :
  (forall x, In x l -> f x = g x) -> mapM f l = mapM g l.
Proof.
  induction l as [|x l IH]; intros H; simpl; [reflexivity|].
  rewrite H by (left; reflexivity). rewrite IH; [reflexivity|].
  intros y Hy; apply H; right; exact Hy.
Qed.
