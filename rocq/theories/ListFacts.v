(** List facts missing from the standard library of Coq 8.16. *)
From Coq Require Import List Arith Bool Lia Permutation.
Import ListNotations.

Lemma nodup_app_iff {A} (a b : list A) :
  NoDup (a ++ b) <-> NoDup a /\ NoDup b /\ (forall x, In x a -> ~ In x b).
Proof.
  induction a as [|x a IH]; simpl.
  - split; [intro H; repeat split; [constructor|exact H|tauto]|tauto].
  - split.
    + intro H. inversion H as [|? ? N D]; subst. apply IH in D. destruct D as (D1 & D2 & D3).
      split; [|split; [exact D2|]].
      * constructor; auto. intro K. apply N, in_or_app. auto.
      * intros y [<-|Hy] K; [apply N, in_or_app; auto|apply (D3 y); auto].
    + intros (D1 & D2 & D3). inversion D1 as [|? ? N D]; subst. constructor.
      * intro K. apply in_app_or in K. destruct K as [K|K]; [contradiction|]. apply (D3 x); auto.
      * apply IH. split; [exact D|split; [exact D2|]]. intros y Hy. apply D3. auto.
Qed.

Lemma nodup_app {A} (a b : list A) :
  NoDup a -> NoDup b -> (forall x, In x a -> ~ In x b) -> NoDup (a ++ b).
Proof. intros. apply nodup_app_iff. auto. Qed.

Lemma skipn_skipn {A} : forall n m (l : list A), skipn n (skipn m l) = skipn (n + m) l.
Proof.
  intros n m. revert n. induction m as [|m IH]; intros n l.
  - rewrite Nat.add_0_r. reflexivity.
  - destruct l as [|x l]; [rewrite !skipn_nil; reflexivity|].
    replace (n + S m) with (S (n + m)) by lia. cbn [skipn]. apply IH.
Qed.

Lemma nodup_split_eq {A} (x : A) a b c d :
  NoDup (a ++ x :: b) -> a ++ x :: b = c ++ x :: d -> a = c /\ b = d.
Proof.
  revert c. induction a as [|y a IH]; intros c N E; destruct c as [|z c]; simpl in *.
  - injection E as E. auto.
  - injection E as E1 E2. subst. inversion N as [|? ? K _]; subst. exfalso. apply K.
    apply in_or_app. simpl. auto.
  - injection E as E1 E2. subst. inversion N as [|? ? K _]; subst. exfalso. apply K.
    apply in_or_app. simpl. auto.
  - injection E as E1 E2. subst. inversion N; subst. destruct (IH c) as [-> ->]; auto.
Qed.
