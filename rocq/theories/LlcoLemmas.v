(** The shape of every history of llco calls. *)
From Coq Require Import List Bool PeanoNat Lia.
From Verif Require Import Llco.
Import ListNotations.

Inductive hist : list (nat * desc) -> nat -> list nat -> list ev -> Prop :=
| h_nil : hist [] 0 [] []
| h_user : forall D N V l p, hist D N V l ->
    (forall n, p = Co n -> In n V) -> hist D N V (EUser p :: l)
| h_start : forall D N V l d, hist D N V l ->
    hist ((N, d) :: D) (S N) (N :: V) (EStart N d :: l)
| h_clean : forall D N V l n c p, hist D N V l -> In n V ->
    d_cleanup (find_desc D n) = Some c -> p <> Co n ->
    hist D N (remove Nat.eq_dec n V)
      (EClean (d_stack (find_desc D n)) p :: EFinal n :: l)
| h_final : forall D N V l n, hist D N V l -> In n V ->
    d_cleanup (find_desc D n) = None ->
    hist D N (remove Nat.eq_dec n V) (EFinal n :: l).

Lemma hist_live D N V l : hist D N V l -> forall n, In n V ->
  n < N /\ ~ In (EFinal n) l /\ In (EStart n (find_desc D n)) l.
Proof.
  intros H. induction H as [|D N V l p H IH U|D N V l d H IH|D N V l m c p H IH I E X
    |D N V l m H IH I E]; intros n IN.
  - destruct IN.
  - destruct (IH n IN) as (A & B & C). split; [exact A|]. split.
    + intros [Q|Q]; [discriminate Q|exact (B Q)].
    + right; exact C.
  - cbn [find_desc]. destruct (Nat.eqb_spec N n) as [->|NE].
    + split; [lia|]. split; [|left; reflexivity].
      intros [Q|Q]; [discriminate Q|].
      assert (K : forall D N V l, hist D N V l -> forall n, In (EFinal n) l -> n < N).
      { clear. intros D N V l H. induction H as [|D N V l p H IH U|D N V l d H IH
          |D N V l m c p H IH I E X|D N V l m H IH I E]; intros n Q.
        - destruct Q.
        - destruct Q as [Q|Q]; [discriminate Q|auto].
        - destruct Q as [Q|Q]; [discriminate Q|]. specialize (IH n Q). lia.
        - destruct Q as [Q|[Q|Q]]; [discriminate Q| |auto].
          injection Q as <-. revert m I E X. 
          assert (Z : forall m, In m V -> m < N).
          { clear - H. induction H; intros k I; auto.
            - destruct I.
            - destruct I as [<-|I]; [lia|]. specialize (IHhist k I). lia.
            - apply in_remove in I. apply IHhist, I.
            - apply in_remove in I. apply IHhist, I. }
          intros m I _ _. apply Z, I.
        - destruct Q as [Q|Q]; [|auto]. injection Q as <-.
          clear - H I. revert m I. induction H; intros k I; auto.
          + destruct I.
          + destruct I as [<-|I]; [lia|]. specialize (IHhist k I). lia.
          + apply in_remove in I. apply IHhist, I.
          + apply in_remove in I. apply IHhist, I. }
      specialize (K D n V l H n Q). lia.
    + destruct IN as [IN|IN]; [contradiction|].
      destruct (IH n IN) as (A & B & C). split; [lia|]. split.
      * intros [Q|Q]; [discriminate Q|exact (B Q)].
      * right; exact C.
  - apply in_remove in IN. destruct IN as [IN NE].
    destruct (IH n IN) as (A & B & C). split; [exact A|]. split.
    + intros [Q|[Q|Q]]; [discriminate Q|injection Q as ->; contradiction|exact (B Q)].
    + right; right; exact C.
  - apply in_remove in IN. destruct IN as [IN NE].
    destruct (IH n IN) as (A & B & C). split; [exact A|]. split.
    + intros [Q|Q]; [injection Q as ->; contradiction|exact (B Q)].
    + right; exact C.
Qed.

Lemma hist_start D N V l : hist D N V l -> forall n d, In (EStart n d) l ->
  n < N /\ find_desc D n = d.
Proof.
  intros H. induction H as [|D N V l p H IH U|D N V l d H IH|D N V l m c p H IH I E X
    |D N V l m H IH I E]; intros n d0 IN.
  - destruct IN.
  - destruct IN as [Q|IN]; [discriminate Q|auto].
  - destruct IN as [Q|IN].
    + injection Q as <- <-. split; [lia|]. cbn. rewrite Nat.eqb_refl. reflexivity.
    + destruct (IH n d0 IN) as [A B]. split; [lia|]. cbn.
      destruct (Nat.eqb_spec N n); [lia|exact B].
  - destruct IN as [Q|[Q|IN]]; [discriminate Q|discriminate Q|auto].
  - destruct IN as [Q|IN]; [discriminate Q|auto].
Qed.

(** The state between two calls. *)
Definition good (s : st) : Prop :=
  active s = false /\ needed s = false /\
  (curp s = Some (phys s) \/ (curp s = None /\ phys s = Thread)) /\
  (forall n, phys s = Co n -> In n (live s)) /\
  hist (descs s) (nxt s) (live s) (log s).

Lemma existsb_in n l : existsb (Nat.eqb n) l = true -> In n l.
Proof.
  intros H. apply existsb_exists in H as (x & I & E).
  apply Nat.eqb_eq in E. subst. exact I.
Qed.

(** Continuing somewhere when nothing waits to be cleaned up. *)
Lemma resume_plain s t : md s = Ok -> needed s = false -> active s = false ->
  hist (descs s) (nxt s) (live s) (log s) -> curp s = Some t ->
  md (resume_at t s) = Ok -> good (resume_at t s).
Proof.
  intros M N A H C. unfold resume_at.
  set (ok := match t with Thread => true | Co n => existsb (Nat.eqb n) (live s) end).
  destruct ok eqn:EO; [|cbn; discriminate].
  unfold cleanup_last. cbn [needed w_phys]. rewrite N. unfold user.
  cbn [md w_phys]. rewrite M. intros _.
  assert (L : forall n, t = Co n -> In n (live s)).
  { intros n ->. apply existsb_in. exact EO. }
  split; [exact A|]. split; [exact N|]. split; [left; exact C|]. split; [exact L|].
  cbn. constructor; assumption.
Qed.

(** A state in which a switch is under way: either nothing waits to be cleaned
    up, or the coroutine [n] that was just left for good. *)
Definition leaving (s : st) : Prop :=
  md s = Ok /\ active s = false /\
  ((needed s = false /\ hist (descs s) (nxt s) (live s) (log s)) \/
   (needed s = true /\ d_cleanup (cdesc s) = None /\
    hist (descs s) (nxt s) (live s) (log s)) \/
   (needed s = true /\ exists n V l c, In n V /\ live s = remove Nat.eq_dec n V /\
      n < nxt s /\ hist (descs s) (nxt s) V l /\ log s = EFinal n :: l /\
      cdesc s = find_desc (descs s) n /\ d_cleanup (cdesc s) = Some c)).

Lemma clean_leaving p s : leaving s ->
  (forall n, p = Co n -> In n (live s) \/ nxt s <= n) ->
  md (cleanup_last (w_phys p s)) = Ok ->
  let z := cleanup_last (w_phys p s) in
  active z = false /\ needed z = false /\ phys z = p /\ curp z = curp s /\
  ldesc z = ldesc s /\ live z = live s /\ descs z = descs s /\ nxt z = nxt s /\
  hist (descs z) (nxt z) (live z) (log z).
Proof.
  intros (M & A & C) P. unfold cleanup_last. cbn [needed w_phys cdesc].
  destruct C as [(N & H)|[(N & DC & H)|(N & n & V & l & c & I & LV & LT & H & LG & CD & DC)]].
  - rewrite N. cbn. intros _. repeat split; assumption.
  - rewrite N, DC. cbn. intros _. repeat split; assumption.
  - rewrite N, DC. destruct c.
    { unfold guarded. cbn. discriminate. }
    cbn. rewrite M. cbn. intros _. rewrite LG, LV, CD.
    repeat split; try assumption. rewrite CD in DC.
    apply (h_clean _ _ _ _ n false p H I DC).
    intros E. destruct (P n E) as [B|B]; [|lia].
    rewrite LV in B. apply in_remove in B. tauto.
Qed.

Lemma resume_leaving s t : leaving s -> curp s = Some t ->
  md (resume_at t s) = Ok -> good (resume_at t s).
Proof.
  intros L C. unfold resume_at.
  set (ok := match t with Thread => true | Co n => existsb (Nat.eqb n) (live s) end).
  destruct ok eqn:EO; [|cbn; discriminate].
  assert (I : forall n, t = Co n -> In n (live s)).
  { intros n ->. apply existsb_in. exact EO. }
  unfold user. destruct (md (cleanup_last (w_phys t s))) eqn:M; intros MM;
    try (rewrite M in MM; discriminate MM).
  destruct (clean_leaving t s L (fun n E => or_introl (I n E)) M)
    as (A & N & P & CU & _ & LV & DD & NX & H).
  split; [exact A|]. split; [exact N|]. split; [left; cbn; congruence|].
  split; [cbn; rewrite P, LV; exact I|].
  cbn. constructor; [exact H|]. rewrite P, LV. exact I.
Qed.

Lemma entry_leaving s : leaving s ->
  md (entry_wrap (w_phys (Co (nxt s)) s)) = Ok ->
  good (entry_wrap (w_phys (Co (nxt s)) s)).
Proof.
  intros L. unfold entry_wrap.
  destruct (md (cleanup_last (w_phys (Co (nxt s)) s))) eqn:M; intros MM;
    try (rewrite M in MM; discriminate MM).
  destruct (clean_leaving (Co (nxt s)) s L) as (A & N & P & CU & LD & LV & DD & NX & H).
  { intros n E. injection E as <-. right. lia. }
  { exact M. }
  unfold user. cbn [md].
  split; [exact A|]. split; [exact N|].
  split; [left; cbn; rewrite P, NX; reflexivity|].
  split; [cbn; rewrite P, NX; intros n E; injection E as <-; left; reflexivity|].
  cbn. constructor; [constructor; exact H|].
  rewrite P, NX. intros n E. injection E as <-. left; reflexivity.
Qed.

Lemma good_leaving s final : md s = Ok -> good s ->
  let from := match curp s with Some c => c | None => Thread end in
  leaving (note_final final
    (if final then w_cdesc (desc_of s from) (w_needed true s) else s)).
Proof.
  intros M (A & N & C & P & H) from.
  assert (F : from = phys s).
  { unfold from. destruct C as [->|[-> ->]]; reflexivity. }
  rewrite F. unfold note_final. destruct final.
  - cbn [phys w_cdesc w_needed]. destruct (phys s) as [|n] eqn:EP.
    + split; [exact M|]. split; [exact A|]. right; left.
      split; [reflexivity|]. split; [reflexivity|]. exact H.
    + split; [exact M|]. split; [exact A|]. right.
      cbn. destruct (d_cleanup (find_desc (descs s) n)) as [c|] eqn:DC.
      * right. split; [reflexivity|]. exists n, (live s), (log s), c.
        specialize (P n eq_refl).
        destruct (hist_live _ _ _ _ H n P) as (LT & _).
        repeat split; assumption.
      * left. split; [reflexivity|]. split; [first [reflexivity|exact DC]|].
        apply h_final; [exact H|apply P; reflexivity|exact DC].
  - split; [exact M|]. split; [exact A|]. left. split; assumption.
Qed.

Lemma leaving_cur s c : leaving s -> leaving (w_cur c s).
Proof. intros L. exact L. Qed.
Lemma leaving_ldesc s d : leaving s -> leaving (w_ldesc d s).
Proof. intros L. exact L. Qed.

Lemma user_good s : md s = Ok -> good s -> good (user s).
Proof.
  intros M (A & N & C & P & H). unfold user. rewrite M.
  split; [exact A|]. split; [exact N|]. split; [exact C|]. split; [exact P|].
  cbn. constructor; assumption.
Qed.

Lemma switch0_good s d co final : md s = Ok -> good s ->
  md (switch0 d co final s) = Ok -> good (switch0 d co final s).
Proof.
  intros M G. pose proof (good_leaving s final M G) as L. unfold switch0.
  cbv zeta in *.
  set (from := match curp s with Some c => c | None => Thread end) in *.
  destruct d as [d|].
  - intros Q. exact (entry_leaving _ (leaving_ldesc _ d L) Q).
  - set (t := match co with Some c => c | None => Thread end).
    destruct (ctx_eqb from t).
    + intros _. apply user_good; assumption.
    + apply resume_leaving; [apply leaving_cur; exact L|reflexivity].
Qed.

Lemma step_good s o : md s = Ok -> good s -> md (step s o) = Ok -> good (step s o).
Proof.
  intros M G. unfold step. rewrite M. destruct o as [d big final|co final|].
  - unfold start. destruct big; [|cbn; discriminate].
    unfold guarded. destruct G as (A & G). rewrite A.
    apply switch0_good; [exact M|split; assumption].
  - unfold switch, guarded. pose proof G as (A & N & C & P & H). rewrite A.
    cbn [negb andb].
    destruct (curp s) as [c|] eqn:EC; [|apply switch0_good; assumption].
    destruct co as [t|]; [|apply switch0_good; assumption].
    destruct (negb (ctx_eqb c t) && negb final) eqn:EX;
      [|apply switch0_good; assumption].
    apply resume_leaving; [|reflexivity]. split; [exact M|]. split; [exact A|].
    left. split; assumption.
  - cbn. discriminate.
Qed.

Lemma step_stuck s o : md s <> Ok -> step s o = s.
Proof. intros N. unfold step. destruct (md s); try reflexivity. contradiction. Qed.

Lemma run_good ops : md (run ops) = Ok -> good (run ops).
Proof.
  unfold run. induction ops as [|o ops IH] using rev_ind; cbn.
  - intros _. split; [reflexivity|]. split; [reflexivity|].
    split; [right; split; reflexivity|]. split; [discriminate|]. constructor.
  - rewrite fold_left_app. cbn [fold_left]. intros M.
    destruct (md (fold_left step ops init)) eqn:E;
      try (rewrite step_stuck in M by congruence; congruence).
    apply step_good; auto.
Qed.

Lemma cleanup_calls s : needed s = true -> d_cleanup (cdesc s) = Some true ->
  md (cleanup_last s) = Aborted.
Proof. intros N D. unfold cleanup_last. rewrite N, D. reflexivity. Qed.

Lemma user_aborted s : md s = Aborted -> md (user s) = Aborted.
Proof. intros M. unfold user. rewrite M. exact M. Qed.

Lemma resume_aborted t s : needed s = true -> d_cleanup (cdesc s) = Some true ->
  (forall k, t = Co k -> In k (live s)) -> md (resume_at t s) = Aborted.
Proof.
  intros N D L. unfold resume_at.
  assert (E : (match t with Thread => true
               | Co n => existsb (Nat.eqb n) (live s) end) = true).
  { destruct t as [|k]; [reflexivity|]. apply existsb_exists. exists k.
    split; [apply L; reflexivity|apply Nat.eqb_refl]. }
  rewrite E. apply user_aborted, cleanup_calls; assumption.
Qed.

Lemma switch0_calls s n co : curp s = Some (Co n) -> phys s = Co n ->
  d_cleanup (find_desc (descs s) n) = Some true -> co <> Some (Co n) ->
  (forall k, co = Some (Co k) -> In k (live s)) ->
  md (switch0 None co true s) = Aborted.
Proof.
  intros C0 P D NE L. unfold switch0. cbv zeta. rewrite C0.
  set (t := match co with Some c => c | None => Thread end).
  assert (EE : ctx_eqb (Co n) t = false).
  { unfold t. destruct co as [[|x]|]; try reflexivity. cbn.
    apply Nat.eqb_neq. intros ->. apply NE. reflexivity. }
  rewrite EE. unfold note_final.
  change (phys (w_cdesc (desc_of s (Co n)) (w_needed true s))) with (phys s).
  rewrite P. apply resume_aborted.
  - reflexivity.
  - exact D.
  - intros k ET.
    change (live _) with (remove Nat.eq_dec n (live s)).
    unfold t in ET. destruct co as [c|]; [|discriminate ET]. subst c.
    apply in_in_remove; [|apply L; reflexivity].
    intros ->. apply NE. reflexivity.
Qed.

Lemma no_calls s n d co : good s ->
  md s = Ok -> phys s = Co n ->
  In (EStart n d) (log s) -> d_cleanup d = Some true ->
  co <> Some (Co n) ->
  md (step s (OSwitch co true)) = Aborted \/
  exists k, co = Some (Co k) /\ ~ In k (live s).
Proof.
  intros G M P IN DC NE. destruct G as (A & N & C & PL & H).
  assert (C0 : curp s = Some (Co n)).
  { destruct C as [C|[_ C]]; [congruence|]. rewrite P in C. discriminate C. }
  destruct (hist_start _ _ _ _ H n d IN) as [_ DD].
  assert (K : (forall k, co = Some (Co k) -> In k (live s)) \/
              exists k, co = Some (Co k) /\ ~ In k (live s)).
  { destruct co as [[|k]|]; try (left; discriminate).
    destruct (in_dec Nat.eq_dec k (live s)) as [I|I].
    - left. intros x E. injection E as <-. exact I.
    - right. eauto. }
  destruct K as [K|K]; [left|right; exact K].
  assert (Q : step s (OSwitch co true) = switch0 None co true s).
  { unfold step. rewrite M. unfold switch, guarded. rewrite C0, A.
    destruct co; [|reflexivity]. cbn [negb]. rewrite !andb_false_r. reflexivity. }
  rewrite Q. apply (switch0_calls s n); try assumption. rewrite DD. exact DC.
Qed.

Lemma cleanup_ldesc s : ldesc (cleanup_last s) = ldesc s.
Proof.
  unfold cleanup_last. destruct (needed s); [|reflexivity].
  destruct (d_cleanup (cdesc s)) as [c|]; [|reflexivity].
  destruct c; cbn; [reflexivity|]. destruct (md s); reflexivity.
Qed.

Lemma cleanup_phys s : phys (cleanup_last s) = phys s /\ nxt (cleanup_last s) = nxt s.
Proof.
  unfold cleanup_last. destruct (needed s); [|split; reflexivity].
  destruct (d_cleanup (cdesc s)) as [c|]; [|split; reflexivity].
  destruct c; cbn; [split; reflexivity|]. destruct (md s); split; reflexivity.
Qed.

Lemma entry_log s : md (entry_wrap s) = Ok ->
  exists l, log (entry_wrap s) = EUser (phys s) :: EStart (nxt s) (ldesc s) :: l /\
    phys (entry_wrap s) = phys s.
Proof.
  unfold entry_wrap. destruct (md (cleanup_last s)) eqn:M; intros MM;
    try (rewrite M in MM; discriminate MM).
  destruct (cleanup_phys s) as [P N]. unfold user. cbn [md].
  exists (log (cleanup_last s)). cbn. rewrite P, N, cleanup_ldesc. auto.
Qed.

Lemma start_log s d final : good s -> md s = Ok ->
  md (step s (OStart d true final)) = Ok ->
  exists l, log (step s (OStart d true final)) =
      EUser (Co (nxt s)) :: EStart (nxt s) d :: l /\
    phys (step s (OStart d true final)) = Co (nxt s).
Proof.
  intros (A & _) M. unfold step. rewrite M. unfold start, guarded. rewrite A.
  unfold switch0. cbv zeta.
  set (z := note_final final _).
  assert (NZ : nxt z = nxt s).
  { unfold z, note_final. destruct final; [|reflexivity]. cbn [phys w_cdesc w_needed].
    destruct (phys s); reflexivity. }
  intros MM. destruct (entry_log _ MM) as (l & E & P).
  exists l. rewrite E, P. rewrite <- NZ. split; reflexivity.
Qed.
