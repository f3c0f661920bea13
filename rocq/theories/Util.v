(** List lemmas missing from the standard library of Coq 8.16. *)
From Coq Require Import List ZArith Bool Lia Permutation.
Import ListNotations.

Lemma NoDup_app_l : forall A (a b : list A), NoDup (a ++ b) -> NoDup a.
Proof.
  induction a as [|x a IH]; intros b H; [constructor|].
  inversion H; subst. constructor; [|eapply IH; eassumption].
  intros I. apply H2. apply in_or_app. left. exact I.
Qed.
Lemma NoDup_app_r : forall A (a b : list A), NoDup (a ++ b) -> NoDup b.
Proof.
  induction a as [|x a IH]; intros b H; [exact H|].
  inversion H; subst. apply IH. assumption.
Qed.
Lemma NoDup_app_disj : forall A (a b : list A) x, NoDup (a ++ b) -> In x a -> ~ In x b.
Proof.
  induction a as [|y a IH]; intros b x H I; [contradiction|].
  inversion H; subst. destruct I as [->|I].
  - intros J. apply H2. apply in_or_app. right. exact J.
  - apply IH; assumption.
Qed.
Lemma NoDup_app_intro : forall A (a b : list A),
  NoDup a -> NoDup b -> (forall x, In x a -> ~ In x b) -> NoDup (a ++ b).
Proof.
  induction a as [|y a IH]; intros b Ha Hb D; [exact Hb|].
  inversion Ha; subst. cbn. constructor.
  - rewrite in_app_iff. intros [I|I]; [contradiction | apply (D y); [left; reflexivity | exact I]].
  - apply IH; auto. intros x I. apply D. right. exact I.
Qed.
Lemma filter_all : forall A (f : A -> bool) l, (forall x, In x l -> f x = true) -> filter f l = l.
Proof.
  induction l as [|x l IH]; intros H; [reflexivity|]. cbn.
  rewrite (H x) by (left; reflexivity). rewrite IH; [reflexivity|]. intros y I. apply H. right. exact I.
Qed.
Lemma filter_none : forall A (f : A -> bool) l, (forall x, In x l -> f x = false) -> filter f l = [].
Proof.
  induction l as [|x l IH]; intros H; [reflexivity|]. cbn.
  rewrite (H x) by (left; reflexivity). apply IH. intros y I. apply H. right. exact I.
Qed.
Lemma filter_filter : forall A (f g : A -> bool) l, filter f (filter g l) = filter (fun x => g x && f x) l.
Proof.
  induction l as [|x l IH]; [reflexivity|]. cbn.
  destruct (g x); cbn; [destruct (f x); rewrite IH; reflexivity | exact IH].
Qed.
Lemma filter_ext_all : forall A (f g : A -> bool) l, (forall x, f x = g x) -> filter f l = filter g l.
Proof. intros. apply filter_ext. assumption. Qed.
