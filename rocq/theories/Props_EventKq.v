(** C56: event waits on systems with kqueue. *)
From Coq Require Import ZArith List Bool Lia.
From Verif Require Import Util AATree AATreeSpec AATreeProofs AATreeHist ShardMap EventWait EventKq Props_Event.
Import ListNotations.
Local Open Scope Z_scope.

(** ** Specification. [waiting], [legal_hist], [is_armed]: Props_Event. *)
(** the kernel reports only what is registered, one filter at a time *)
Definition reported (s : est) (o : eop) : Prop :=
  match o with
  | EEvent fd r w => r = negb w /\ is_armed s fd (if r then EVREAD else EVWRITE) = true
  | _ => True
  end.
Fixpoint faithful (s : est) (os : list eop) : Prop :=
  match os with
  | [] => True
  | o :: os => reported s o /\ match kstep s o with Some s' => faithful s' os | None => True end
  end.
(** nobody begins to wait for an event all of whose waiters have been resumed but have
    not run yet *)
Definition prompt (past : list eop) (s : est) (o : eop) : Prop :=
  match o with
  | EWait fd kind _ => forall i, waiting past fd kind i = true -> exists j, waiting past fd kind j = true /\ ~ In j (woken s)
  | _ => True
  end.
Fixpoint prompt_hist (past : list eop) (s : est) (os : list eop) : Prop :=
  match os with
  | [] => True
  | o :: os => prompt past s o /\ match kstep s o with Some s' => prompt_hist (o :: past) s' os | None => True end
  end.

(** ** Proof: the waiters are those of the epoll variant *)
Lemma kstep_est : forall s o, match kstep s o, estep s o with Some a, Some b => ev a = ev b /\ woken a = woken b | None, None => True | _, _ => False end.
Proof.
  intros s o. destruct o as [fd kind id|fd kind id|fd r w]; cbn [kstep estep].
  - cbn. auto.
  - destruct (mdelete _ _ _ _) as [[m pr]|]; cbn; auto.
  - destruct (if r then _ else _); [|exact Logic.I]. destruct (if w then _ else _); [|exact Logic.I]. cbn. auto.
Qed.
Lemma einv_ev : forall past a b, ev a = ev b -> einv past a -> einv past b.
Proof. intros past a b E [M P O]. constructor; [rewrite <- E; exact M | exact P | exact O]. Qed.
Lemma kstep_inv : forall past s o, einv past s -> legal past o -> exists s', kstep s o = Some s' /\ einv (o :: past) s'.
Proof.
  intros past s o I L. destruct (estep_inv past s o I L) as (s1 & E1 & I1). pose proof (kstep_est s o) as K. rewrite E1 in K. destruct (kstep s o) as [s2|]; [|destruct K].
  exists s2. split; [reflexivity|]. apply (einv_ev _ s1); [symmetry; apply K | exact I1].
Qed.
Lemma krun_inv : forall os past s, einv past s -> legal_hist past os -> exists s', krun s os = Some s' /\ einv (rev os ++ past) s'.
Proof.
  induction os as [|o os IH]; intros past s I L; cbn [krun rev]; [exists s; auto|].
  destruct L as [L1 L2]. destruct (kstep_inv past s o I L1) as (s1 & -> & I1). destruct (IH _ s1 I1 L2) as (s2 & E & I2).
  exists s2. split; [exact E|]. rewrite <- app_assoc. exact I2.
Qed.
Lemma kev : forall past s s1 fd r w, einv past s -> kstep s (EEvent fd r w) = Some s1 ->
  exists l, woken s1 = l ++ woken s /\ NoDup l /\
    (forall id, In id l <-> (r = true /\ waiting past fd EVREAD id = true) \/ (w = true /\ waiting past fd EVWRITE id = true)) /\
    forall f, armed s1 f = if f =? fd then (fst (armed s f) && negb r, snd (armed s f) && negb w) else armed s f.
Proof.
  intros past s s1 fd r w I E. destruct (wake_spec _ s fd EVREAD I) as (l1 & E1 & N1 & W1). destruct (wake_spec _ s fd EVWRITE I) as (l2 & E2 & N2 & W2).
  cbn [kstep] in E. rewrite E1, E2 in E.
  assert (EQ : s1 = mkest (ev s) (fun f => if f =? fd then (fst (armed s f) && negb r, snd (armed s f) && negb w) else armed s f) (map snd ((if r then l1 else []) ++ (if w then l2 else [])) ++ woken s)) by (destruct r, w; injection E as <-; reflexivity).
  clear E. subst s1. eexists. split; [reflexivity|].
  assert (MI : forall kind l, (forall k, In k l <-> exists id, k = (fd, kind, id) /\ waiting past fd kind id = true) -> forall id, In id (map (snd (A := Z * Z) (B := Z)) l) <-> waiting past fd kind id = true).
  { intros kind l W id. rewrite in_map_iff. split; [intros (k & K1 & K2); apply W in K2; destruct K2 as (i & -> & H); cbn in K1; subst; exact H | intros H; exists (fd, kind, id); split; [reflexivity | apply W; eauto]]. }
  assert (ND : forall kind l, (forall k, In k l <-> exists id, k = (fd, kind, id) /\ waiting past fd kind id = true) -> NoDup l -> NoDup (map (snd (A := Z * Z) (B := Z)) l)).
  { intros kind l W N. assert (FK : forall k, In k l -> fst k = (fd, kind)) by (intros k J; apply W in J; destruct J as (id & -> & _); reflexivity).
    clear -N FK. induction N as [|x l NI N IH]; cbn; [constructor|]. constructor; [|apply IH; intros k J; apply FK; right; exact J].
    intros J. apply in_map_iff in J. destruct J as (y & Y1 & Y2). apply NI. replace x with y; [exact Y2|].
    pose proof (FK x (or_introl eq_refl)). pose proof (FK y (or_intror Y2)). destruct x, y; cbn in *; congruence. }
  split; [|split; [|reflexivity]].
  - destruct r, w; cbn [map]; rewrite ?app_nil_r; try (cbn [app]; eapply ND; eassumption); [|constructor].
    rewrite map_app. apply NoDup_app_intro; [eapply ND; eassumption | eapply ND; eassumption|].
    intros x H1 H2. apply (MI _ _ W1) in H1. apply (MI _ _ W2) in H2. destruct (ei_one _ _ I _ _ _ _ _ H1 H2) as [_ D]. discriminate D.
  - intros id. rewrite map_app, in_app_iff. destruct r, w; cbn [map]; rewrite ?(MI EVREAD l1 W1), ?(MI EVWRITE l2 W2); cbn; intuition discriminate.
Qed.

(** ** C56 *)
(** An event resumes exactly the coroutines waiting for it: all of them, each once. *)
Theorem C56_wakes_exactly : forall os s fd r w, legal_hist [] os -> krun einit os = Some s ->
  exists s' l, kstep s (EEvent fd r w) = Some s' /\ woken s' = l ++ woken s /\ NoDup l /\
    forall id, In id l <-> (r = true /\ waiting (rev os) fd EVREAD id = true) \/ (w = true /\ waiting (rev os) fd EVWRITE id = true).
Proof.
  intros os s fd r w L E. destruct (krun_inv os [] einit einv0 L) as (s0 & E0 & I). rewrite E in E0. injection E0 as <-. rewrite app_nil_r in I.
  destruct (kstep_inv _ s (EEvent fd r w) I Logic.I) as (s1 & E1 & _). destruct (kev _ _ _ _ _ _ I E1) as (l & A & B & C & _). exists s1, l. auto.
Qed.
(** No legal history runs into undefined behaviour. *)
Theorem C56_no_ub : forall os, legal_hist [] os -> krun einit os <> None.
Proof. intros os L. destruct (krun_inv os [] einit einv0 L) as (s0 & E0 & _). congruence. Qed.

(** Whoever is still asleep is registered with the kernel, if nobody begins to wait for
    an event between its report and the first run of a coroutine it resumed. Unlike with
    epoll, an event of the other direction does no harm. *)
Theorem C56_never_forgotten_partial : forall os s, legal_hist [] os -> prompt_hist [] einit os -> krun einit os = Some s ->
  forall fd kind id, waiting (rev os) fd kind id = true -> In id (woken s) \/ is_armed s fd kind = true.
Proof.
  assert (G : forall os past s s', einv past s -> (forall fd kind id, waiting past fd kind id = true -> In id (woken s) \/ is_armed s fd kind = true) ->
    legal_hist past os -> prompt_hist past s os -> krun s os = Some s' ->
    forall fd kind id, waiting (rev os ++ past) fd kind id = true -> In id (woken s') \/ is_armed s' fd kind = true).
  { induction os as [|o os IH]; intros past s s' I A L C E; cbn [krun rev] in *; [injection E as <-; exact A|].
    destruct L as [L1 L2]. destruct C as [C1 C2]. destruct (kstep_inv past s o I L1) as (s1 & E1 & I1). rewrite E1 in *.
    rewrite <- app_assoc. apply (IH (o :: past) s1 s' I1); auto. clear IH E L2 C2.
    intros f k i W. destruct o as [fd kind id|fd kind id|fd r w].
    - cbn [kstep] in E1. injection E1 as <-. cbn [woken]. unfold is_armed. cbn [armed]. cbn [waiting] in W.
      assert (AR : (kind = k -> f = fd -> is_armed (mkest (ev s) (kq_add s fd kind) (woken s)) fd kind = true) /\ (is_armed s f k = true -> is_armed (mkest (ev s) (kq_add s fd kind) (woken s)) f k = true)).
      { unfold is_armed, kq_add. cbn [armed]. destruct (evexists (ev s) fd kind) eqn:EX.
        - split; [intros _ _|auto]. apply (evexists_spec past s fd kind I) in EX. destruct EX as (j & WJ). destruct (C1 _ WJ) as (j' & WJ' & NW). destruct (A _ _ _ WJ') as [H|H]; [contradiction | exact H].
        - split; [intros _ _; rewrite Z.eqb_refl; destruct (kind =? EVREAD); reflexivity|]. intros H. destruct (f =? fd); [|exact H]. destruct (kind =? EVREAD), (k =? EVREAD); cbn; auto. }
      destruct AR as [A1 A2]. destruct ((fd =? f) && (kind =? k) && (id =? i)) eqn:X.
      + apply andb_prop in X. destruct X as [X _]. apply andb_prop in X. destruct X as [X1 X2]. apply Z.eqb_eq in X1, X2. subst. right. apply A1; reflexivity.
      + destruct (A _ _ _ W) as [H|H]; [left; exact H | right; apply A2; exact H].
    - cbn [kstep] in E1. destruct (mdelete _ _ _ _) as [[m pr]|]; [|discriminate]. injection E1 as <-. cbn [woken waiting] in *. unfold is_armed in *. cbn [armed].
      destruct ((fd =? f) && (kind =? k) && (id =? i)) eqn:X; [discriminate|]. destruct (A _ _ _ W) as [H|H]; [|right; exact H].
      left. apply filter_In. split; [exact H|]. destruct (Z.eqb_spec i id) as [->|]; [|reflexivity]. exfalso.
      cbn in L1. destruct (ei_one _ _ I _ _ _ _ _ W L1) as [-> ->]. rewrite !Z.eqb_refl in X. discriminate.
    - cbn [waiting] in W. destruct (kev _ _ _ _ _ _ I E1) as (l & EW & _ & IL & EA). destruct (A _ _ _ W) as [H|H]; [left; rewrite EW; apply in_or_app; auto|].
      unfold is_armed in *. rewrite EA. destruct (Z.eqb_spec f fd) as [->|]; [|auto]. destruct (ei_pos _ _ I _ _ _ W) as [_ [->| ->]].
      + destruct r; [left; rewrite EW; apply in_or_app; left; apply IL; auto|]. cbn in *. rewrite H. auto.
      + destruct w; [left; rewrite EW; apply in_or_app; left; apply IL; auto|]. cbn in *. rewrite H. auto. }
  intros os s L C E fd kind id W. apply (G os [] einit s einv0); auto; [discriminate|]. rewrite app_nil_r. exact W.
Qed.

(** In general it is false. Coroutine 1 waits to read from descriptor 7 and is resumed by
    its event; before it runs, coroutine 2 begins to wait for the same event (another
    reader has taken the data). 1 still counts as a waiter, so nothing is registered with
    the kernel: whatever happens from then on, 2 is never resumed by an event, as long as
    it does not give up by itself. *)
Lemma stuck_step : forall past s o s', einv past s -> legal past o -> reported s o -> kstep s o = Some s' -> o <> ELeave 7 EVREAD 2 ->
  waiting past 7 EVREAD 2 = true -> ~ In 2 (woken s) -> is_armed s 7 EVREAD = false ->
  waiting (o :: past) 7 EVREAD 2 = true /\ ~ In 2 (woken s') /\ is_armed s' 7 EVREAD = false.
Proof.
  intros past s o s' I L R E NL W NW NA. destruct o as [fd kind id|fd kind id|fd r w].
  - split; [cbn [waiting]; destruct (_ && _); [reflexivity | exact W]|]. cbn [kstep] in E. injection E as <-. cbn [woken]. split; [exact NW|].
    unfold is_armed in *. cbn [armed]. unfold kq_add. destruct (evexists (ev s) fd kind) eqn:EX; [exact NA|].
    destruct (Z.eqb_spec 7 fd) as [<-|]; [|exact NA]. destruct (Z.eqb_spec kind EVREAD) as [->|]; [|cbn; exact NA].
    rewrite (proj2 (evexists_spec past s 7 EVREAD I)) in EX; [discriminate EX | eauto].
  - cbn [kstep] in E. destruct (mdelete _ _ _ _) as [[m pr]|]; [|discriminate]. injection E as <-. cbn [woken waiting]. split.
    + destruct ((fd =? 7) && (kind =? EVREAD) && (id =? 2)) eqn:X; [|exact W]. exfalso. apply NL. apply andb_prop in X. destruct X as [X X3]. apply andb_prop in X. destruct X as [X1 X2]. apply Z.eqb_eq in X1, X2, X3. congruence.
    + split; [|exact NA]. intros H. apply filter_In in H. apply NW, H.
  - destruct (kev _ _ _ _ _ _ I E) as (l & EW & _ & IL & EA). cbn [waiting]. split; [exact W|]. split.
    + rewrite EW. intros H. apply in_app_or in H. destruct H as [H|H]; [|exact (NW H)]. apply IL in H. destruct R as [RW RA]. destruct H as [[-> H]|[-> H]].
      * destruct (ei_one _ _ I _ _ _ _ _ W H) as [<- _]. congruence.
      * destruct (ei_one _ _ I _ _ _ _ _ W H) as [_ D]. discriminate D.
    + unfold is_armed in *. rewrite EA. destruct (Z.eqb_spec 7 fd) as [<-|]; [|exact NA]. change (fst (armed s 7) = false) in NA. change (fst (armed s 7) && negb r = false). rewrite NA. reflexivity.
Qed.
Theorem C56_forgotten_refuted : exists os s, legal_hist [] os /\ faithful einit os /\ krun einit os = Some s /\ waiting (rev os) 7 EVREAD 2 = true /\
  forall more s', legal_hist (rev os) more -> faithful s more -> krun s more = Some s' -> ~ In (ELeave 7 EVREAD 2) more ->
  waiting (rev more ++ rev os) 7 EVREAD 2 = true /\ ~ In 2 (woken s') /\ is_armed s' 7 EVREAD = false.
Proof.
  set (os := [EWait 7 EVREAD 1; EEvent 7 true false; EWait 7 EVREAD 2]). destruct (krun einit os) as [s|] eqn:E; [|exfalso; assert (X : match krun einit os with None => false | _ => true end = true) by (vm_compute; reflexivity); rewrite E in X; discriminate X].
  assert (L : legal_hist [] os) by (repeat split; auto; try lia; nowait).
  exists os, s. split; [exact L|]. split; [vm_compute; auto|]. split; [exact E|]. split; [reflexivity|].
  destruct (krun_inv os [] einit einv0 L) as (s0 & E0 & I). rewrite E in E0. injection E0 as <-. rewrite app_nil_r in I.
  assert (W : waiting (rev os) 7 EVREAD 2 = true) by reflexivity.
  assert (B : match krun einit os with Some s => (existsb (Z.eqb 2) (woken s), is_armed s 7 EVREAD) | None => (true, true) end = (false, false)) by (vm_compute; reflexivity).
  rewrite E in B. pose proof (f_equal fst B) as B1. pose proof (f_equal snd B) as NA. cbn [fst snd] in B1, NA. clear B.
  assert (NW : ~ In 2 (woken s)) by (intros H; assert (X : existsb (Z.eqb 2) (woken s) = true) by (apply existsb_exists; exists 2; auto); congruence).
  clearbody os. clear E L B1. revert I W NW NA. generalize (rev os). intros past I W NW NA more. revert past s I W NW NA.
  induction more as [|o more IH]; intros past s I W NW NA s' L F E NL; cbn [krun rev app] in *; [injection E as <-; auto|].
  destruct L as [L1 L2]. destruct F as [F1 F2]. destruct (kstep_inv past s o I L1) as (s1 & E1 & I1). rewrite E1 in *.
  destruct (stuck_step past s o s1 I L1 F1 E1) as (A & B & C); auto; [intros ->; apply NL; left; reflexivity|].
  rewrite <- app_assoc. apply (IH (o :: past) s1 I1); auto; intros H; apply NL; right; exact H.
Qed.

(** a reader and a writer on one descriptor: the read event leaves the writer registered *)
Example C56_case : exists s,
  krun einit [EWait 7 EVREAD 3; EWait 7 EVREAD 1; EWait 7 EVWRITE 5; EEvent 7 true false; ELeave 7 EVREAD 3] = Some s /\ woken s = [1] /\ armed s 7 = (false, true) /\
  legal_hist [] [EWait 7 EVREAD 3; EWait 7 EVREAD 1; EWait 7 EVWRITE 5; EEvent 7 true false; ELeave 7 EVREAD 3] /\
  prompt_hist [] einit [EWait 7 EVREAD 3; EWait 7 EVREAD 1; EWait 7 EVWRITE 5; EEvent 7 true false; ELeave 7 EVREAD 3].
Proof.
  eexists. split; [vm_compute; reflexivity|]. split; [reflexivity|]. split; [reflexivity|]. split; [repeat split; auto; try lia; nowait|].
  cbn [prompt_hist prompt kstep]. split; [intros i H; discriminate H|]. split; [intros i H; exists 3; split; [reflexivity | intros []]|]. split; [intros i H; discriminate H|]. vm_compute. auto.
Qed.

Print Assumptions C56_wakes_exactly.
Print Assumptions C56_no_ub.
Print Assumptions C56_never_forgotten_partial.
Print Assumptions C56_forgotten_refuted.
