(* Running concrete programs, for the examples: a run given by its actions is a run of the
   model, and the rules can be computed. *)
From Coq Require Import List ZArith Bool Arith Lia.
From Verif Require Import DtModel DtSpec DtProof PdModel PdSpec.
Import ListNotations.
Local Open Scope Z_scope.

Inductive act : Type :=
| AWrite (b : nat) (x v : Z) | ASend (b : nat) (d : dt) (n : nat) (pa : path) | APost (b : nat) (d : dt) (n : nat)
| AMove (i : nat)        (* the message at this place *)
| AMatch (i j : nat)     (* the message and the receive at these places *)
| ARest (fuel : nat).    (* always the first message that can, up to this many times *)

Definition pick {A} (i : nat) (l : list A) : option (list A * A * list A) :=
  match nth_error l i with Some x => Some (firstn i l, x, skipn (S i) l) | None => None end.
Lemma pick_ok : forall A i (l : list A) a x b, pick i l = Some (a, x, b) -> l = a ++ x :: b.
Proof.
  intros A i l a x b E. unfold pick in E. destruct (nth_error l i) as [y|] eqn:N; [|discriminate]. injection E as <- <- <-.
  revert l N. induction i as [|i IH]; intros [|z l] N; try discriminate; cbn in *; [congruence|]. f_equal. now apply IH.
Qed.
Definition movable (it : item) : bool := match fst it with Unexp => false | _ => true end.
Fixpoint first_from (i : nat) (l : list item) : option nat :=
  match l with [] => None | x :: t => if movable x then Some i else first_from (S i) t end.

Section Exec.
Variable c : pcfg.
Definition go_move (i : nat) (hs : list pobs * pst) : option (list pobs * pst) :=
  let (h, s) := hs in
  match pick i (s_items s) with
  | Some (a, it, b) => if movable it then match moves_on c it (a ++ b) s with Next o s' => Some (o ++ h, s') | _ => None end else None
  | None => None
  end.
Fixpoint go_rest (fuel : nat) (hs : list pobs * pst) : option (list pobs * pst) :=
  match fuel with
  | O => Some hs
  | S k => match first_from 0 (s_items (snd hs)) with
           | None => Some hs
           | Some i => match go_move i hs with Some hs' => go_rest k hs' | None => None end
           end
  end.
Definition go (a : act) (hs : list pobs * pst) : option (list pobs * pst) :=
  let (h, s) := hs in
  match a with
  | AWrite b x v => Some (OWrite b x v :: h, set_items s (store (User b) (mset (hp_user (s_hp s) b) x v) (s_hp s)) (s_items s))
  | ASend b d n pa => match send c b d n pa s with Some (o, s') => Some (o ++ h, s') | None => None end
  | APost b d n => let (o, s') := post c b d n s in Some (o ++ h, s')
  | AMove i => go_move i hs
  | AMatch i j =>
    match pick i (s_items s), pick j (s_posted s) with
    | Some (l, (Unexp, m), r), Some (k, q, t) =>
      match matched c m q (l ++ r) (k ++ t) s with Next o s' => Some (o ++ h, s') | _ => None end
    | _, _ => None
    end
  | ARest fuel => go_rest fuel hs
  end.
Fixpoint exec (l : list act) (hs : list pobs * pst) : option (list pobs * pst) :=
  match l with [] => Some hs | a :: t => match go a hs with Some hs' => exec t hs' | None => None end end.

Lemma go_move_run : forall user i hs h' s', prun c user (fst hs) (snd hs) -> go_move i hs = Some (h', s') -> prun c user h' s'.
Proof.
  intros user i (h, s) h' s' R E. cbn [fst snd] in R. unfold go_move in E. destruct (pick i (s_items s)) as [((a, it), b)|] eqn:P; [|discriminate].
  destruct (movable it) eqn:M; [|discriminate]. destruct (moves_on c it (a ++ b) s) eqn:MO; try discriminate. injection E as <- <-.
  eapply p_move; eauto using pick_ok. intros K. unfold movable in M. now rewrite K in M.
Qed.
Lemma go_rest_run : forall user k hs h' s', prun c user (fst hs) (snd hs) -> go_rest k hs = Some (h', s') -> prun c user h' s'.
Proof.
  intros user. induction k as [|k IH]; intros hs h' s' R E; cbn [go_rest] in E; [injection E as ->; exact R|].
  destruct (first_from 0 (s_items (snd hs))) as [i|]; [|injection E as ->; exact R].
  destruct (go_move i hs) as [(h1, s1)|] eqn:G; [|discriminate]. apply (IH (h1, s1)); [|exact E]. eapply go_move_run; eauto.
Qed.
Lemma go_rest_settle : forall k hs h' s', go_rest k hs = Some (h', s') -> exists j, settle c j (fst hs) (snd hs) h' s'.
Proof.
  induction k as [|k IH]; intros hs h' s' E; cbn [go_rest] in E; [injection E as ->; eexists; constructor|].
  destruct (first_from 0 (s_items (snd hs))) as [i|]; [|injection E as ->; eexists; constructor].
  destruct (go_move i hs) as [(h1, s1)|] eqn:G; [|discriminate]. destruct (IH (h1, s1) h' s' E) as (j & S). exists (Datatypes.S j).
  destruct hs as (h, s). unfold go_move in G. cbn [fst snd] in *. destruct (pick i (s_items s)) as [((a, it), b)|] eqn:P; [|discriminate].
  destruct (movable it) eqn:M; [|discriminate]. destruct (moves_on c it (a ++ b) s) eqn:MO; try discriminate. injection G as <- <-.
  eapply se_move; eauto using pick_ok. intros K. unfold movable in M. now rewrite K in M.
Qed.
Lemma go_run : forall user a h s h' s', prun c user h s -> go a (h, s) = Some (h', s') -> prun c user h' s'.
Proof.
  intros user a h s h' s' R E. destruct a; cbn [go] in E.
  - injection E as <- <-. now constructor.
  - destruct (send c b d n pa s) as [(o, s1)|] eqn:S; [|discriminate]. injection E as <- <-. eapply p_send; eauto.
  - destruct (post c b d n s) as (o, s1) eqn:P. injection E as <- <-. eapply p_post; eauto.
  - apply (go_move_run user i (h, s)); auto.
  - destruct (pick i (s_items s)) as [((l, (pl, m)), r)|] eqn:P; [|discriminate]. destruct pl; try discriminate.
    destruct (pick j (s_posted s)) as [((k, q), t)|] eqn:Q; [|discriminate].
    destruct (matched c m q (l ++ r) (k ++ t) s) eqn:M; try discriminate. injection E as <- <-. eapply p_match; eauto using pick_ok.
  - apply (go_rest_run user fuel (h, s)); auto.
Qed.
Lemma exec_run : forall user l h s h' s', prun c user h s -> exec l (h, s) = Some (h', s') -> prun c user h' s'.
Proof.
  intros user l. induction l as [|a l IH]; intros h s h' s' R E; cbn [exec] in E; [injection E as <- <-; exact R|].
  destruct (go a (h, s)) as [(h1, s1)|] eqn:G; [|discriminate]. apply (IH h1 s1); [|exact E]. eapply go_run; eauto.
Qed.
End Exec.

(* ---------- the rules, computed ---------- *)

Definition sdone (f : nat) (h : list pobs) : bool := existsb (fun e => match e with OSendDone g => Nat.eqb g f | _ => false end) h.
Definition rdone (r : nat) (h : list pobs) : bool := existsb (fun e => match e with ORecvDone g _ _ => Nat.eqb g r | _ => false end) h.
Definition sendingb (b : nat) (h : list pobs) : bool :=
  existsb (fun e => match e with OSend f b' _ _ _ => Nat.eqb b' b && negb (sdone f h) | _ => false end) h.
Definition receivingb (b : nat) (h : list pobs) : bool :=
  existsb (fun e => match e with ORecv r b' _ _ _ => Nat.eqb b' b && negb (rdone r h) | _ => false end) h.
Fixpoint obeysb (h : list pobs) : bool :=
  match h with
  | [] => true
  | e :: r => obeysb r &&
    match e with
    | OWrite b _ _ | ORecv _ b _ _ _ => negb (sendingb b r) && negb (receivingb b r)
    | OSend _ b _ _ _ => negb (receivingb b r)
    | _ => true
    end
  end.
Definition fitsb (h : list pobs) : bool :=
  forallb (fun e => match e with
    | OMatch r f => forallb (fun e1 => match e1 with
        | OSend f' _ d1 n1 _ => negb (Nat.eqb f' f) || forallb (fun e2 => match e2 with
            | ORecv r' _ d2 n2 _ => negb (Nat.eqb r' r) || ((size_of d1 n1 <=? size_of d2 n2) && (mcontig (build d2) || Nat.leb n1 n2))
            | _ => true end) h
        | _ => true end) h
    | _ => true end) h.

Lemma sdone_in : forall f h, In (OSendDone f) h -> sdone f h = true.
Proof. intros f h I. apply existsb_exists. exists (OSendDone f). split; [exact I|apply Nat.eqb_refl]. Qed.
Lemma sdone_out : forall f h, sdone f h = true -> In (OSendDone f) h.
Proof. intros f h E. apply existsb_exists in E. destruct E as (e & I & E). destruct e; try discriminate. apply Nat.eqb_eq in E. now subst. Qed.
Lemma rdone_out : forall r h, rdone r h = true -> exists f out, In (ORecvDone r f out) h.
Proof. intros r h E. apply existsb_exists in E. destruct E as (e & I & E). destruct e; try discriminate. apply Nat.eqb_eq in E. subst. eauto. Qed.
Lemma sendingb_ok : forall b h, sendingb b h = false -> ~ sending b h.
Proof.
  intros b h E (f & d & n & src & I & N). assert (sendingb b h = true); [|congruence]. apply existsb_exists. exists (OSend f b d n src).
  split; [exact I|]. rewrite Nat.eqb_refl. cbn. destruct (sdone f h) eqn:S; [|reflexivity]. exfalso. apply N. now apply sdone_out.
Qed.
Lemma receivingb_ok : forall b h, receivingb b h = false -> ~ receiving b h.
Proof.
  intros b h E (r & d & n & dst & I & N). assert (receivingb b h = true); [|congruence]. apply existsb_exists. exists (ORecv r b d n dst).
  split; [exact I|]. rewrite Nat.eqb_refl. cbn. destruct (rdone r h) eqn:S; [|reflexivity]. exfalso. apply rdone_out in S. destruct S as (f & out & S).
  eapply N; eauto.
Qed.
Lemma obeysb_ok : forall h, obeysb h = true -> obeys h.
Proof.
  induction h as [|e h IH]; intros E; [exact Logic.I|]. cbn [obeysb] in E. apply andb_prop in E. destruct E as (E & F). split; [auto|].
  destruct e; try exact Logic.I; rewrite ?andb_true_iff, ?negb_true_iff in F.
  - destruct F. split; [now apply sendingb_ok|now apply receivingb_ok].
  - now apply receivingb_ok.
  - destruct F. split; [now apply sendingb_ok|now apply receivingb_ok].
Qed.
Lemma fitsb_ok : forall h, fitsb h = true -> fits h.
Proof.
  intros h E r f b1 d1 n1 src b2 d2 n2 dst A B C. unfold fitsb in E. rewrite forallb_forall in E. specialize (E _ A). cbn beta iota in E.
  rewrite forallb_forall in E. specialize (E _ B). cbn beta iota in E. rewrite Nat.eqb_refl in E. cbn [negb orb] in E.
  rewrite forallb_forall in E. specialize (E _ C). cbn beta iota in E. rewrite Nat.eqb_refl in E. cbn [negb orb] in E.
  apply andb_prop in E. destruct E as (E & F). apply Z.leb_le in E. split; [exact E|]. apply orb_prop in F. destruct F as [F|F]; [now left|].
  right. now apply Nat.leb_le.
Qed.
(* All types of the history are among these. *)
Definition typesb (p : dt -> bool) (h : list pobs) : bool :=
  forallb (fun e => match e with OSend _ _ d _ _ => p d | ORecv _ _ d _ _ => p d | _ => true end) h.
Lemma typesb_ok : forall p h, (forall d, p d = true -> blocks_pos d) -> typesb p h = true -> types_ok h.
Proof.
  intros p h P E. unfold typesb in E. rewrite forallb_forall in E. split; intros.
  - apply P. apply (E _ H).
  - apply P. apply (E _ H).
Qed.
Lemma rules_ok : forall p h, (forall d, p d = true -> blocks_pos d) -> obeysb h && typesb p h && fitsb h = true -> rules h.
Proof.
  intros p h P E. apply andb_prop in E. destruct E as (E & F). apply andb_prop in E. destruct E as (E & G).
  split; [now apply obeysb_ok|]. split; [eapply typesb_ok; eauto|now apply fitsb_ok].
Qed.
