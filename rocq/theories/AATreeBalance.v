(** Proofs about the AA tree: balance. *)
From Coq Require Import List Arith Lia Bool Sorted.
From Verif Require Import AATree AATreeSpec AATreeProofs.
Import ListNotations.

(** The AA balance conditions (specification side): levels of left children are
    one below, right children at most level, right grandchildren strictly
    below. *)
Fixpoint balanced {A} (t : tree A) : Prop :=
  match t with
  | Leaf => True
  | Node v l _ r =>
      balanced l /\ balanced r /\ v = S (lvl l) /\
      (v = S (lvl r) \/
       match r with Leaf => False | Node rv _ _ rr => rv = v /\ v = S (lvl rr) end)
  end.

Definition sngl {A} (t : tree A) : Prop :=
  match t with Leaf => True | Node v _ _ r => v = S (lvl r) end.

Section B.
  Context {A : Type}.
  Variable cmp : A -> A -> comparison.

  Definition ins_post (t t' : tree A) : Prop :=
    balanced t' /\
    (lvl t' = lvl t \/ (lvl t' = S (lvl t) /\ (t = Leaf \/ ~ sngl t) /\ sngl t')).

  Definition del_post (t t' : tree A) : Prop :=
    balanced t' /\ (lvl t' = lvl t \/ S (lvl t') = lvl t) /\
    (lvl t' = lvl t -> sngl t -> sngl t').

  Ltac cmps := repeat match goal with
    | |- context [?a =? ?b] => destruct (Nat.eqb_spec a b)
    | |- context [?a <? ?b] => destruct (Nat.ltb_spec a b)
    | _ : context [?a <? ?b] |- _ => destruct (Nat.ltb_spec a b)
    end.
  Ltac dest_or := repeat match goal with
    | H : _ /\ _ |- _ => destruct H
    | H : _ \/ _ |- _ => destruct H
    | H : False |- _ => destruct H
    end.

  Lemma ins_left v l x x' r l' : balanced (Node v l x r) -> ins_post l l' ->
    ins_post (Node v l x r) (split (skew (Node v l' x' r))).
  Proof.
    intros (Bl&Br&Hl&Hr) (Bl'&P). destruct P as [P|(P&_&S)].
    - assert (E : skew (Node v l' x' r) = Node v l' x' r).
      { destruct l' as [|lv ll lx lr]; auto. simpl in *.
        destruct (Nat.eqb_spec lv v); auto. lia. }
      rewrite E. unfold ins_post.
      assert (E2 : split (Node v l' x' r) = Node v l' x' r).
      { destruct r as [|rv rl rx [|rrv rrl rrx rrr]]; auto. simpl in *.
        destruct (Nat.eqb_spec rrv v); auto. lia. }
      rewrite E2. split; [|left; reflexivity]. simpl. repeat split; auto. lia.
    - destruct l' as [|lv ll lx lr]; [simpl in *; lia|].
      simpl in P, S. simpl in Bl'. destruct Bl' as (B1&B2&B3&B4).
      simpl. destruct (Nat.eqb_spec lv v); [|lia].
      destruct r as [|rv rl rx rr].
      + simpl in *. unfold ins_post. simpl. repeat split; auto; try lia.
      + simpl. simpl in Br, Hr. destruct Br as (R1&R2&R3&R4).
        destruct (Nat.eqb_spec rv lv).
        * unfold ins_post. simpl. repeat split; auto; try lia.
        * unfold ins_post. simpl. repeat split; auto; try lia.
  Qed.

  Lemma ins_right v l x r r' : balanced (Node v l x r) -> ins_post r r' ->
    ins_post (Node v l x r) (split (skew (Node v l x r'))).
  Proof.
    intros (Bl&Br&Hl&Hr) (Br'&P).
    assert (E : skew (Node v l x r') = Node v l x r').
    { destruct l as [|lv ll lx lr]; auto. simpl in *.
      destruct (Nat.eqb_spec lv v); auto. lia. }
    rewrite E. unfold ins_post.
    destruct P as [P|(P&D&S)].
    - destruct r' as [|rv rl rx rr].
      + simpl in *. repeat split; auto; try lia.
        left. destruct Hr as [Hr|Hr]; [lia|]. destruct r; simpl in *; [contradiction|lia].
      + simpl in Br'. destruct Br' as (R1&R2&R3&R4).
        destruct rr as [|rrv rrl rrx rrr].
        * simpl in *. destruct r as [|r0v r0l r0x r0r]; simpl in *; repeat split; auto; lia.
        * simpl. destruct (Nat.eqb_spec rrv v).
          -- destruct r as [|r0v r0l r0x r0r]; simpl in *; [lia|].
             repeat split; auto; try tauto; try lia.
          -- destruct r as [|r0v r0l r0x r0r]; simpl in *; repeat split; auto; try tauto; lia.
    - destruct r' as [|rv rl rx rr]; [simpl in *; lia|].
      simpl in *. destruct Br' as (R1&R2&R3&R4).
      destruct rr as [|rrv rrl rrx rrr].
      + simpl in *. repeat split; auto; try lia.
        right. destruct r as [|r0v r0l r0x r0r]; simpl in *; [lia|]. destruct D; [discriminate|]. lia.
      + simpl in *. destruct r as [|r0v r0l r0x r0r]; simpl in *.
        * destruct (Nat.eqb_spec rrv v); repeat split; auto; try tauto; lia.
        * destruct D as [D|D]; [discriminate|].
          destruct (Nat.eqb_spec rrv v); repeat split; auto; try tauto; try lia.
          all: try (right; repeat split; (lia || (right; simpl; lia))).
          all: simpl; lia.
  Qed.

  Lemma insert_balanced t x : balanced t -> ins_post t (fst (insert cmp t x)).
  Proof.
    unfold insert. induction t as [|v l IHl y r IHr]; intros B.
    - simpl. unfold ins_post; simpl. repeat split; auto.
    - cbn [insert0]. destruct (cmp x y).
      + cbn [fst]. change (ins_post (Node v l y r) (split (skew (Node v l x r)))).
        apply (ins_left v l y x r l); [exact B|]. destruct B as (B&_). split; auto.
      + specialize (IHl (proj1 B)). destruct (insert0 cmp l x) as [l' d]. cbn [fst] in *.
        apply ins_left; auto.
      + specialize (IHr (proj1 (proj2 B))). destruct (insert0 cmp r x) as [r' d]. cbn [fst] in *.
        apply ins_right; auto.
  Qed.

  Lemma skew_eq v (a : tree A) b c x r :
    skew (Node v (Node v a b c) x r) = Node v a b (Node v c x r).
  Proof. simpl. rewrite Nat.eqb_refl. reflexivity. Qed.
  Lemma split_eq v (l : tree A) x a b c d e f :
    split (Node v l x (Node a b c (Node v d e f))) =
    Node (S a) (Node v l x b) c (Node v d e f).
  Proof. simpl. rewrite Nat.eqb_refl. reflexivity. Qed.

  Lemma del_same v l x x' r l' r' : balanced (Node v l x r) ->
    balanced l' -> balanced r' -> lvl l' = lvl l -> lvl r' = lvl r ->
    (sngl r -> sngl r') -> r <> Leaf \/ r' = Leaf ->
    del_post (Node v l x r) (delete_fixup (Node v l' x' r')).
  Proof.
    intros (Bl&Br&Hl&Hr) Bl' Br' El Er Sr NL.
    assert (V : balanced (Node v l' x' r') /\ (v = S (lvl r) -> v = S (lvl r'))).
    { simpl. repeat split; auto; try lia.
      destruct Hr as [Hr|Hr]; [left; lia|]. destruct r as [|rv rl rx rr]; [contradiction|].
      simpl in *. right. destruct r' as [|rv' rl' rx' rr']; simpl in *; lia. }
    destruct V as [V V2].
    assert (E : delete_fixup (Node v l' x' r') = Node v l' x' r').
    { clear - V. destruct V as (Bl&Br&Hl&Hr). unfold delete_fixup.
      assert (E1 : decrease_level (Node v l' x' r') = Node v l' x' r').
      { simpl. destruct l' as [|lv ll lx lr]; destruct r' as [|rv rl rx rr]; simpl in *; auto.
        - destruct (Nat.ltb_spec 1 v); auto. lia.
        - destruct (Nat.ltb_spec 1 v); auto. destruct Bl as (?&?&?&?). lia.
        - destruct Bl as (?&?&?&?), Br as (?&?&?&?).
          cmps; auto; lia. }
      rewrite E1.
      assert (E2 : forall (u : tree A), balanced u -> skew u = u).
      { intros [|uv [|ulv ull ulx ulr] ux ur]; auto. intros (?&?&?&?). simpl in *.
        destruct (Nat.eqb_spec ulv uv); auto. lia. }
      assert (E3 : forall (u : tree A), balanced u -> split u = u).
      { intros [|uv ul ux [|urv url urx [|a b c d]]]; auto. intros (?&?&?&?). simpl in *.
        destruct (Nat.eqb_spec a uv); auto. lia. }
      assert (V : balanced (Node v l' x' r')) by (simpl; auto).
      rewrite E2 by auto. cbn [on_right]. rewrite (E2 r') by auto.
      destruct r' as [|rv rl rx [|a b c d]].
      - rewrite E3 by auto. reflexivity.
      - rewrite E3 by auto. cbn [on_right]. rewrite E3 by auto. reflexivity.
      - cbn [on_right]. rewrite (E2 (Node a b c d)) by (destruct Br as (?&?&?); auto).
        rewrite E3 by auto. cbn [on_right]. rewrite E3 by auto. reflexivity. }
    rewrite E. split; [exact V|]. split; [left; reflexivity|]. intros _. simpl. auto.
  Qed.

  Ltac crush := repeat match goal with
    | H : balanced (Node _ _ _ _) |- _ => destruct H as (?&?&?&?)
    end; simpl in *; dest_or; subst; simpl in *.

  Lemma del_left v l x x' r l' : balanced (Node v l x r) -> del_post l l' ->
    del_post (Node v l x r) (delete_fixup (Node v l' x' r)).
  Proof.
    intros B P. destruct P as (Bl'&[P|P]&S).
    - apply del_same; auto; try (destruct B as (?&?&?); auto; fail).
      destruct r; auto. left; discriminate.
    - clear S. destruct B as (Bl&Br&Hl&Hr).
      (* left subtree lost a level: v >= 2, so r is not empty *)
      destruct r as [|rv rl rx rr]; [exfalso; destruct Hr; [simpl in *; lia|contradiction]|].
      assert (Hv : v = S (S (lvl l'))) by lia. clear Hl. subst v. set (k := lvl l') in *.
      destruct Br as (Brl&Brr&Hrl&Hrr).
      unfold delete_fixup.
      assert (E1 : decrease_level (Node (S (S k)) l' x' (Node rv rl rx rr)) =
                   Node (S k) l' x' (Node (if S k <? rv then S k else rv) rl rx rr)).
      { simpl. destruct l' as [|lv ll lx lr]; subst k; simpl in *; cmps; try reflexivity; try lia. }
      rewrite E1. clear E1.
      assert (E2 : forall q, skew (Node (S k) l' x' q) = Node (S k) l' x' q).
      { intros q. destruct l' as [|lv ll lx lr]; auto. simpl in *.
        destruct (Nat.eqb_spec lv (S k)); auto. subst k. lia. }
      rewrite E2. cbn [on_right]. clear E2.
      destruct Hr as [Hr|[-> Hr]].
      + (* r one below *)
        assert (Hrv : rv = S k) by (simpl in Hr; lia). clear Hr. rewrite Hrv in *. clear Hrv.
        destruct (Nat.ltb_spec (S k) (S k)); [lia|].
        assert (E3 : skew (Node (S k) rl rx rr) = Node (S k) rl rx rr).
        { destruct rl as [|a b c d]; auto. simpl in *. destruct (Nat.eqb_spec a (S k)); auto. lia. }
        rewrite E3.
        destruct Hrr as [Hrr|Hrr].
        * (* r single: result Node (S k) l' x' r, level dropped *)
          match goal with |- context [on_right split (split ?m)] =>
            replace m with (Node (S k) l' x' (Node (S k) rl rx rr)) end.
          2:{ destruct rr as [|a b c d]; auto. cbn [on_right].
            destruct b as [|e f g h]; auto. simpl. destruct Brr as (?&?&?&?). simpl in *.
            destruct (Nat.eqb_spec e a); auto. lia. }
          assert (E5 : split (Node (S k) l' x' (Node (S k) rl rx rr)) = Node (S k) l' x' (Node (S k) rl rx rr)).
          { destruct rr as [|a b c d]; auto. simpl in *. destruct (Nat.eqb_spec a (S k)); auto. lia. }
          rewrite E5. cbn [on_right].
          assert (E6 : split (Node (S k) rl rx rr) = Node (S k) rl rx rr).
          { destruct rr as [|a b c [|e f g h]]; auto. simpl in *. destruct (Nat.eqb_spec e (S k)); auto.
            destruct Brr as (?&?&?&?). lia. }
          rewrite E6. unfold del_post. simpl. repeat split; auto; try lia.
        * (* r double *)
          destruct rr as [|a b c d]; [contradiction|]. destruct Hrr as [-> Hrr].
          destruct Brr as (Bb&Bd&Hb&Hd).
          cbn [on_right].
          assert (E4 : skew (Node (S k) b c d) = Node (S k) b c d).
          { destruct b as [|e f g h]; auto. simpl in *. destruct (Nat.eqb_spec e (S k)); auto. lia. }
          rewrite E4. rewrite split_eq. cbn [on_right].
          assert (E5 : split (Node (S k) b c d) = Node (S k) b c d).
          { destruct d as [|e f g [|e2 f2 g2 h2]]; auto. simpl in *.
            destruct Bd as (?&?&?&?).
            destruct (Nat.eqb_spec e2 (S k)); auto. lia. }
          rewrite E5. unfold del_post. simpl. repeat split; auto; try lia.
      + (* r horizontal, level S (S k), single *)
        destruct (Nat.ltb_spec (S k) (S (S k))); [|lia].
        (* rl has level S k *)
        assert (Lrl : lvl rl = S k) by lia.
        assert (Lrr : lvl rr = S k) by lia. clear Hrr.
        destruct rl as [|a b c d]; [simpl in Lrl; lia|]. simpl in Lrl. subst a.
        destruct Brl as (Bb&Bd&Hb&Hd).
        rewrite skew_eq.
        (* r = Node (S k) b c (Node (S k) d rx rr) *)
        cbn [on_right].
        simpl in Hb.
        destruct Hd as [Hd|Hd].
        * (* rl single *)
          assert (E4 : skew (Node (S k) d rx rr) = Node (S k) d rx rr).
          { destruct d as [|e f g h]; auto. simpl in *. destruct (Nat.eqb_spec e (S k)); auto. lia. }
          rewrite E4.
          rewrite split_eq. cbn [on_right].
          destruct rr as [|e f g h]; [simpl in Lrr; lia|]. simpl in Lrr; subst e.
          destruct Brr as (Bf&Bh&Hf&Hh).
          destruct Hh as [Hh|Hh].
          -- (* rr single *)
             assert (E5 : split (Node (S k) d rx (Node (S k) f g h)) = Node (S k) d rx (Node (S k) f g h)).
             { destruct h as [|e2 f2 g2 h2]; auto. simpl in *. destruct (Nat.eqb_spec e2 (S k)); auto. lia. }
             rewrite E5. unfold del_post. simpl. repeat split; auto; try lia.
          -- destruct h as [|e2 f2 g2 h2]; [contradiction|]. destruct Hh as [-> Hh].
             rewrite split_eq. unfold del_post. simpl. 
             destruct Bh as (?&?&?&?). repeat split; auto; try lia.
        * (* rl double: d = Node (S k) e f g with right level k *)
          destruct d as [|e f g h]; [contradiction|]. destruct Hd as [-> Hd].
          destruct Bd as (Bf&Bh&Hf&Hh).
          rewrite skew_eq.
          (* Node (S k) b c (Node (S k) f g (Node (S k) h rx rr)) *)
          rewrite split_eq. cbn [on_right].
          unfold del_post.
          destruct rr as [|e2 f2 g2 h2]; [simpl in Lrr; lia|]. simpl in Lrr; subst e2.
          destruct Brr as (Bf2&Bh2&Hf2&Hh2). rewrite split_eq.
          simpl. repeat split; auto; try lia; simpl in *; try lia.
  Qed.

  Lemma del_right v l x x' r r' : balanced (Node v l x r) -> del_post r r' ->
    del_post (Node v l x r) (delete_fixup (Node v l x' r')).
  Proof.
    intros B P. destruct P as (Br'&[P|P]&S).
    - apply del_same; auto; try (destruct B as (?&?&?); auto; fail).
      destruct r' as [|a b c d]; auto. left. intros ->. simpl in P. destruct Br' as (?&?&?&?). lia.
    - clear S. destruct B as (Bl&Br&Hl&Hr).
      destruct r as [|rv rl rx rr]; [simpl in P; lia|].
      simpl in P, Hr. destruct Br as (Brl&Brr&Hrl&Hrr).
      destruct Hr as [Hr|[-> Hr]].
      + (* r was one below, now two below: v = S (S (lvl r')) ; left has level S (lvl r') *)
        assert (Hv : v = S (S (lvl r'))) by lia.
        assert (Ll : lvl l = S (lvl r')) by lia. clear Hl Hr. subst v. set (k := lvl r') in *.
        destruct l as [|lv ll lx lr]; [simpl in Ll; lia|]. simpl in Ll; subst lv.
        destruct Bl as (Bll&Blr&Hll&Hlr).
        unfold delete_fixup.
        assert (E1 : decrease_level (Node (S (S k)) (Node (S k) ll lx lr) x' r') =
                     Node (S k) (Node (S k) ll lx lr) x' r').
        { simpl. destruct r' as [|a b c d]; subst k; simpl in *; cmps; try reflexivity; try lia. }
        rewrite E1. rewrite skew_eq. cbn [on_right].
        destruct Hlr as [Hlr|Hlr].
        * (* left single *)
          assert (E2 : skew (Node (S k) lr x' r') = Node (S k) lr x' r').
          { destruct lr as [|a b c d]; auto. simpl in *. destruct (Nat.eqb_spec a (S k)); auto. lia. }
          rewrite E2.
          match goal with |- context [on_right split (split ?m)] =>
            replace m with (Node (S k) ll lx (Node (S k) lr x' r')) end.
          2:{ destruct r' as [|a b c d]; auto. cbn [on_right].
            destruct b as [|e f g h]; auto. simpl. destruct Br' as (?&?&?&?). simpl in *.
            destruct (Nat.eqb_spec e a); auto. lia. }
          assert (E4 : split (Node (S k) ll lx (Node (S k) lr x' r')) = Node (S k) ll lx (Node (S k) lr x' r')).
          { destruct r' as [|a b c d]; auto. simpl in *. subst k. destruct (Nat.eqb_spec a (S a)); auto. lia. }
          rewrite E4. cbn [on_right].
          assert (E5 : split (Node (S k) lr x' r') = Node (S k) lr x' r').
          { destruct r' as [|a b c [|e f g h]]; auto. simpl in *. destruct Br' as (?&?&?&?). subst k.
            destruct (Nat.eqb_spec e (S a)); auto. lia. }
          rewrite E5. unfold del_post. simpl. repeat split; auto; try lia.
        * (* left double *)
          destruct lr as [|a b c d]; [contradiction|]. destruct Hlr as [-> Hlr].
          destruct Blr as (Bb&Bd&Hb&Hd).
          rewrite skew_eq.
          (* Node (S k) ll lx (Node (S k) b c (Node (S k) d x' r')) *)
          cbn [on_right].
          assert (E2 : skew (Node (S k) d x' r') = Node (S k) d x' r').
          { destruct d as [|e f g h]; auto. simpl in *. destruct (Nat.eqb_spec e (S k)); auto. lia. }
          rewrite E2. rewrite split_eq. cbn [on_right].
          assert (E5 : split (Node (S k) d x' r') = Node (S k) d x' r').
          { destruct r' as [|e f g [|e2 f2 g2 h2]]; auto. simpl in *. destruct Br' as (?&?&?&?). subst k.
            destruct (Nat.eqb_spec e2 (S e)); auto. lia. }
          rewrite E5. unfold del_post. simpl. simpl in *. repeat split; auto; try lia.
      + (* r was horizontal at level v, now level v-1: the node becomes single *)
        assert (Hv : v = S (lvl r')) by lia.
        assert (V : balanced (Node v l x' r')).
        { simpl. repeat split; auto. }
        assert (NF : delete_fixup (Node v l x' r') = Node v l x' r').
        { assert (Q : del_post (Node v l x' r') (delete_fixup (Node v l x' r'))).
          { apply del_same; auto. destruct r'; auto. left; discriminate. }
          clear Q.
          (* same computation as in del_same *)
          clear - V. destruct V as (Bl&Br&Hl&Hr). unfold delete_fixup.
          assert (E1 : decrease_level (Node v l x' r') = Node v l x' r').
          { simpl. destruct l as [|lv ll lx lr]; destruct r' as [|rv rl rx rr]; simpl in *; auto.
            - destruct (Nat.ltb_spec 1 v); auto. lia.
            - destruct (Nat.ltb_spec 1 v); auto. destruct Bl as (?&?&?&?). lia.
            - destruct Bl as (?&?&?&?), Br as (?&?&?&?).
              cmps; auto; lia. }
          rewrite E1.
          assert (E2 : forall (u : tree A), balanced u -> skew u = u).
          { intros [|uv [|ulv ull ulx ulr] ux ur]; auto. intros (?&?&?&?). simpl in *.
            destruct (Nat.eqb_spec ulv uv); auto. lia. }
          assert (E3 : forall (u : tree A), balanced u -> split u = u).
          { intros [|uv ul ux [|urv url urx [|a b c d]]]; auto. intros (?&?&?&?). simpl in *.
            destruct (Nat.eqb_spec a uv); auto. lia. }
          assert (V : balanced (Node v l x' r')) by (simpl; auto).
          rewrite E2 by auto. cbn [on_right]. rewrite (E2 r') by auto.
          destruct r' as [|rv rl rx [|a b c d]].
          - rewrite E3 by auto. reflexivity.
          - rewrite E3 by auto. cbn [on_right]. rewrite E3 by auto. reflexivity.
          - cbn [on_right]. rewrite (E2 (Node a b c d)) by (destruct Br as (?&?&?); auto).
            rewrite E3 by auto. cbn [on_right]. rewrite E3 by auto. reflexivity. }
        rewrite NF. unfold del_post. split; [exact V|]. split; [left; reflexivity|]. simpl. auto.
  Qed.

  Lemma delete_first0_balanced (t : tree A) : balanced t -> del_post t (fst (delete_first0 t)).
  Proof.
    induction t as [|v l IHl y r IHr]; intros B.
    - simpl. repeat split; auto.
    - cbn [delete_first0]. destruct l as [|lv ll lx lr].
      + cbn [fst]. destruct B as (_&Br&Hv&Hr). unfold del_post. simpl in *.
        split; auto. split.
        * destruct r; simpl in *; lia.
        * intros E Sg. lia.
      + specialize (IHl (proj1 B)). destruct (delete_first0 (Node lv ll lx lr)) as [l' d].
        cbn [fst] in *. apply del_left; auto.
  Qed.
  Lemma delete_last0_balanced (t : tree A) : balanced t -> del_post t (fst (delete_last0 t)).
  Proof.
    induction t as [|v l IHl y r IHr]; intros B.
    - simpl. repeat split; auto.
    - cbn [delete_last0]. destruct r as [|rv rl rx rr].
      + cbn [fst]. destruct B as (Bl&_&Hv&Hr). unfold del_post. simpl in *.
        split; auto. split; [lia|]. intros; lia.
      + specialize (IHr (proj1 (proj2 B))). destruct (delete_last0 (Node rv rl rx rr)) as [r' d].
        cbn [fst] in *. apply del_right; auto.
  Qed.
  Lemma delete_balanced t x t' : balanced t -> fst (delete cmp t x) = Some t' -> del_post t t'.
  Proof.
    unfold delete. revert t'. induction t as [|v l IHl y r IHr]; intros t' B.
    - simpl. intros [= <-]. repeat split; auto.
    - cbn [delete0]. destruct (cmp x y).
      + cbn [fst]. destruct l as [|lv ll lx lr].
        * destruct r as [|rv rl rx rr].
          -- intros [= <-]. destruct B as (?&?&?&?). simpl in *. repeat split; auto; lia.
          -- pose proof (delete_first0_balanced (Node rv rl rx rr) (proj1 (proj2 B))) as D.
             destruct (delete_first0 (Node rv rl rx rr)) as [r' [m|]]; [|discriminate].
             intros [= <-]. apply del_right; auto.
        * pose proof (delete_last0_balanced (Node lv ll lx lr) (proj1 B)) as D.
          destruct (delete_last0 (Node lv ll lx lr)) as [l' [m|]]; [|discriminate].
          intros [= <-]. apply del_left; auto.
      + specialize (fun u => IHl u (proj1 B)). destruct (delete0 cmp l x) as [[l'|] d]; [|discriminate].
        cbn [fst] in *. intros [= <-]. apply del_left; auto.
      + specialize (fun u => IHr u (proj1 (proj2 B))). destruct (delete0 cmp r x) as [[r'|] d]; [|discriminate].
        cbn [fst] in *. intros [= <-]. apply del_right; auto.
  Qed.

  (** height and size *)
  Lemma balanced_height (t : tree A) : balanced t ->
    height t <= 2 * lvl t /\ (sngl t -> t <> Leaf -> height t <= 2 * lvl t - 1).
  Proof.
    induction t as [|v l IHl x r IHr]; intros B; [simpl; split; [lia|congruence]|].
    destruct B as (Bl&Br&Hl&Hr). specialize (IHl Bl). specialize (IHr Br).
    destruct IHl as [L1 _]. destruct IHr as [R1 R2]. cbn [height lvl sngl].
    destruct Hr as [Hr|Hr].
    - split; intros; lia.
    - destruct r as [|rv rl rx rr]; [contradiction|]. destruct Hr as [-> Hr].
      specialize (R2 Hr ltac:(discriminate)). cbn [lvl] in *. split; intros; lia.
  Qed.
  Lemma balanced_size (t : tree A) : balanced t -> 2 ^ lvl t <= S (length (elements t)).
  Proof.
    induction t as [|v l IHl x r IHr]; intros B; [simpl; lia|].
    destruct B as (Bl&Br&Hl&Hr). specialize (IHl Bl). specialize (IHr Br).
    cbn [lvl elements]. rewrite app_length. cbn [length].
    assert (2 ^ v = 2 * 2 ^ lvl l) by (rewrite Hl; apply Nat.pow_succ_r').
    destruct Hr as [Hr|Hr].
    - assert (lvl l = lvl r) as E by lia. rewrite E in *. lia.
    - destruct r as [|rv rl rx rr]; [contradiction|]. destruct Hr as [-> Hr].
      cbn [lvl] in IHr. lia.
  Qed.
  Lemma balanced_log_height (t : tree A) : balanced t ->
    height t <= 2 * Nat.log2 (S (length (elements t))).
  Proof.
    intros B. pose proof (balanced_size t B) as S. apply Nat.log2_le_mono in S.
    rewrite Nat.log2_pow2 in S by lia. destruct (balanced_height t B) as [H _]. lia.
  Qed.
End B.
