(** C39: coroutine stacks are disjoint. *)
From Coq Require Import List ZArith Bool Lia.
From Verif Require Import StackMgr.
Import ListNotations.
Local Open Scope Z_scope.

(** * Specification vocabulary, from the log of system calls and stacks, newest first *)
(** the stacks handed out and not given back *)
Fixpoint held (l : list sev) : list stackref :=
  match l with
  | [] => []
  | SGet a b :: r => (a, b) :: held r
  | SPut a b :: r => filter (fun x => negb (fst x =? a)) (held r)
  | _ :: r => held r
  end.
(** the address ranges mapped *)
Fixpoint mapped (l : list sev) : list (Z * Z) :=
  match l with
  | [] => []
  | SMap a n :: r => (a, n) :: mapped r
  | SUnmap a n :: r => filter (fun x => negb (fst x =? a)) (mapped r)
  | _ :: r => mapped r
  end.
(** Clients give back only what they hold. *)
Definition disciplined (L : list sev) (o : sop) : Prop := match o with OGet _ _ _ => True | OPut r => In r (held L) end.
Inductive shist (m : smgr) : sstate -> list sev -> Prop :=
| sh_init : shist m (mkss [] []) []
| sh_step : forall s L o s' e, shist m s L -> disciplined L o -> sstep m s o = Some (s', e) -> shist m s' (e ++ L).
(** The configuration: positive sizes, and a group of the largest size does not exceed
    the address space. *)
Record fits (m : smgr) : Prop := {
  ft_page : 0 < pagesz m; ft_stack : pagesz m <= stacksz m; ft_gap : 0 < gapsz m; ft_def : 0 < defcap m; ft_max : 0 < maxcap m;
  ft_ge : gapsz m <= group_gap m; ft_hdr : 0 <= align_size GROUPSZ (pagesz m);
  ft_all : align_size GROUPSZ (pagesz m) + group_gap m + (stacksz m + group_gap m) * maxcap m < M64 }.

(** * Proofs *)
Definition slot (m : smgr) (g : grp) (i : Z) : Z := stack0 g + (stacksz m + group_gap m) * i.
Record gok (m : smgr) (g : grp) : Prop := {
  gk_alloc : allocsz g = group_off m + (stacksz m + group_gap m) * cap g; gk_gap : ggapsz g = group_gap m;
  gk_s0 : stack0 g = gbase g + group_off m; gk_cap : 0 < cap g <= maxcap m; gk_pos : 0 <= pos g <= cap g;
  gk_base : 0 < gbase g; gk_end : gbase g + allocsz g <= M64 }.
Record sinv (m : smgr) (s : sstate) (L : list sev) : Prop := {
  sv_gok : forall g, In g (groups s) -> gok m g;
  sv_nd : NoDup (map gbase (groups s));
  sv_dis : forall g h, In g (groups s) -> In h (groups s) -> gbase g <> gbase h -> gbase g + allocsz g <= gbase h \/ gbase h + allocsz h <= gbase g;
  sv_map : forall x, In x (mapped L) <-> exists g, In g (groups s) /\ x = (gbase g, allocsz g);
  sv_slot : forall x, In x (held L) \/ In x (freed s) -> exists g i, In g (groups s) /\ gbase g = snd x /\ 0 <= i < pos g /\ fst x = slot m g i;
  sv_h : NoDup (map fst (held L)); sv_f : NoDup (map fst (freed s));
  sv_hf : forall x y, In x (held L) -> In y (freed s) -> fst x <> fst y;
  sv_nofree : nofree m = true -> freed s = [];
  sv_use : forall g, In g (groups s) -> use g = Z.of_nat (length (filter (fun x => snd x =? gbase g) (held L)));
  sv_all : nofree m = false -> forall g i, In g (groups s) -> 0 <= i < pos g -> In (slot m g i, gbase g) (held L) \/ In (slot m g i, gbase g) (freed s) }.

Section F.
Variable m : smgr.
Hypothesis FT : fits m.
Lemma off_eq : group_off m = align_size GROUPSZ (pagesz m) + group_gap m.
Proof.
  destruct FT. unfold group_off, w64. apply Z.mod_small. split; [lia|]. nia.
Qed.
Lemma step_pos : 0 < stacksz m + group_gap m.
Proof. destruct FT. lia. Qed.
Lemma step_w64 : w64 (stacksz m + group_gap m) = stacksz m + group_gap m.
Proof. destruct FT. unfold w64. apply Z.mod_small. nia. Qed.
Lemma size_eq : forall c, 0 <= c <= maxcap m -> group_size m c = group_off m + (stacksz m + group_gap m) * c.
Proof.
  intros c C. pose proof off_eq as O. pose proof step_pos. destruct FT. unfold group_size. rewrite step_w64, O. unfold w64.
  rewrite (Z.mod_small ((stacksz m + group_gap m) * c)) by nia. apply Z.mod_small. nia.
Qed.
Lemma off_pos : group_gap m <= group_off m.
Proof. rewrite off_eq. destruct FT. lia. Qed.
Lemma gap_pos : 0 < group_gap m.
Proof. destruct FT. lia. Qed.
Lemma slot_w64 : forall g i, gok m g -> 0 <= i <= pos g -> pos g < cap g \/ i < pos g -> w64 (stack0 g + w64 (w64 (stacksz m + ggapsz g) * i)) = slot m g i.
Proof.
  intros g i K I J. pose proof off_pos. pose proof gap_pos. pose proof step_pos. destruct K. rewrite gk_gap0, step_w64. unfold slot. destruct FT.
  unfold w64. rewrite (Z.mod_small ((stacksz m + group_gap m) * i)) by nia. apply Z.mod_small. nia.
Qed.
Lemma slot_in : forall g i, gok m g -> 0 <= i < cap g -> gbase g + group_gap m <= slot m g i /\ slot m g i + stacksz m + group_gap m <= gbase g + allocsz g.
Proof. intros g i K I. pose proof off_pos. pose proof step_pos. destruct K. unfold slot. rewrite gk_alloc0, gk_s1. split; nia. Qed.
Lemma slot_inj : forall s L g h i j, sinv m s L -> In g (groups s) -> In h (groups s) -> 0 <= i < cap g -> 0 <= j < cap h -> slot m g i = slot m h j -> gbase g = gbase h /\ (g = h -> i = j).
Proof.
  intros s L g h i j V G H I J E. pose proof (slot_in g i (sv_gok _ _ _ V g G) I) as [A1 A2]. pose proof (slot_in h j (sv_gok _ _ _ V h H) J) as [B1 B2].
  pose proof gap_pos. destruct FT. split.
  - destruct (Z.eq_dec (gbase g) (gbase h)) as [Q|Q]; [exact Q|]. destruct (sv_dis _ _ _ V g h G H Q); lia.
  - intros ->. unfold slot in E. pose proof step_pos. nia.
Qed.
Lemma base_inj : forall s L g h, sinv m s L -> In g (groups s) -> In h (groups s) -> gbase g = gbase h -> g = h.
Proof.
  intros s L g h V. pose proof (sv_nd _ _ _ V) as N. clear V. induction (groups s) as [|x l IH]; [intros []|]. cbn in N. apply NoDup_cons_iff in N. destruct N as [N1 N2].
  intros [->|G] [->|H] E; [reflexivity | | |apply IH; assumption]; exfalso; apply N1; [rewrite E | rewrite <- E]; apply in_map; assumption.
Qed.
Lemma upd_map : forall b f l, (forall g, gbase (f g) = gbase g) -> map gbase (upd_group b f l) = map gbase l.
Proof. intros b f l H. unfold upd_group. rewrite map_map. apply map_ext. intros g. destruct (_ =? _); [apply H | reflexivity]. Qed.
Lemma upd_in : forall b f l g, In g (upd_group b f l) -> (exists h, In h l /\ gbase h = b /\ g = f h) \/ (In g l /\ gbase g <> b).
Proof. intros b f l g H. unfold upd_group in H. apply in_map_iff in H. destruct H as (h & E & I). destruct (Z.eqb_spec (gbase h) b); [left; eauto | right; subst; auto]. Qed.
Lemma upd_in' : forall b f l g, In g l -> In (if gbase g =? b then f g else g) (upd_group b f l).
Proof. intros b f l g H. unfold upd_group. apply (in_map (fun g => if gbase g =? b then f g else g)). exact H. Qed.

(** handing out a stack: the common part of both ways *)
Lemma get_inv : forall s L a b f fr, sinv m s L ->
  (forall g, gbase (f g) = gbase g /\ allocsz (f g) = allocsz g /\ ggapsz (f g) = ggapsz g /\ stack0 (f g) = stack0 g /\ cap (f g) = cap g /\ use (f g) = use g + 1 /\ pos g <= pos (f g)) ->
  (forall x, In x fr -> In x (freed s)) -> NoDup (map fst fr) -> (forall x, In x (held L) \/ In x fr -> fst x <> a) ->
  (forall g, In g (groups s) -> gbase g = b -> pos (f g) <= cap g /\ exists i, 0 <= i < pos (f g) /\ a = slot m g i) -> (exists g, In g (groups s) /\ gbase g = b) ->
  (nofree m = false -> forall x, In x (freed s) -> x = (a, b) \/ In x fr) ->
  (nofree m = false -> forall g i, In g (groups s) -> gbase g = b -> pos g <= i < pos (f g) -> a = slot m g i) ->
  sinv m (mkss (upd_group b f (groups s)) fr) (SGet a b :: L).
Proof.
  intros s L a b f fr V F1 F2 F3 F4 F5 F6 F7 F8.
  assert (FB : forall g, gbase (f g) = gbase g) by (intros g; apply F1).
  assert (SL : forall g i, slot m (f g) i = slot m g i) by (intros g i; unfold slot; destruct (F1 g) as (_ & _ & _ & -> & _); reflexivity).
  split; cbn [groups freed held mapped].
  - intros g G. apply upd_in in G. destruct G as [(h & H & E & ->)|[G _]]; [|exact (sv_gok _ _ _ V g G)].
    destruct (sv_gok _ _ _ V h H). destruct (F1 h) as (E1 & E2 & E3 & E4 & E5 & E6 & E7). destruct (F5 h H E) as [P _].
    split; rewrite ?E1, ?E2, ?E3, ?E4, ?E5; try assumption. lia.
  - rewrite upd_map by exact FB. exact (sv_nd _ _ _ V).
  - intros g h G H NE. apply upd_in in G. apply upd_in in H.
    assert (Q : forall x, (exists h, In h (groups s) /\ gbase h = b /\ x = f h) \/ (In x (groups s) /\ gbase x <> b) -> exists y, In y (groups s) /\ gbase x = gbase y /\ allocsz x = allocsz y).
    { intros x [(y & Y & _ & ->)|[X _]]; [exists y; destruct (F1 y) as (-> & -> & _); auto | exists x; auto]. }
    destruct (Q _ G) as (g' & G' & Q1 & Q2). destruct (Q _ H) as (h' & H' & Q3 & Q4). rewrite Q1, Q2, Q3, Q4.
    apply (sv_dis _ _ _ V); [assumption|assumption|]. congruence.
  - intros x. rewrite (sv_map _ _ _ V x). split; intros (g & G & ->).
    + exists (if gbase g =? b then f g else g). split; [apply upd_in'; exact G|]. destruct (_ =? _); [|reflexivity]. destruct (F1 g) as (-> & -> & _). reflexivity.
    + apply upd_in in G. destruct G as [(h & H & E & ->)|[G _]]; [|eauto]. exists h. split; [exact H|]. destruct (F1 h) as (-> & -> & _). reflexivity.
  - intros x X. assert (Q : In x (held L) \/ In x (freed s) \/ x = (a, b)) by (destruct X as [[X|X]|X]; auto). destruct Q as [Q|[Q| ->]].
    1, 2: (destruct (sv_slot _ _ _ V x ltac:(auto)) as (g & i & G & E & I & A); exists (if gbase g =? b then f g else g), i; split; [apply upd_in'; exact G|];
      destruct (_ =? _); [|auto]; destruct (F1 g) as (E1 & _ & _ & _ & _ & _ & E7); rewrite E1, SL; split; [exact E|]; split; [lia | exact A]).
    destruct F6 as (g & G & E). destruct (F5 g G E) as (_ & i & I & A). exists (f g), i. split; [|split; [rewrite FB; exact E | split; [exact I | rewrite SL; exact A]]].
    pose proof (upd_in' b f (groups s) g G) as U. rewrite E, Z.eqb_refl in U. exact U.
  - cbn. constructor; [|exact (sv_h _ _ _ V)]. intros I. apply in_map_iff in I. destruct I as (x & E & I). exact (F4 x (or_introl I) E).
  - exact F3.
  - intros x y [<-|X] Y; [cbn; intros E; exact (F4 y (or_intror Y) (eq_sym E)) | exact (sv_hf _ _ _ V x y X (F2 _ Y))].
  - intros N. pose proof (sv_nofree _ _ _ V N) as E. destruct fr as [|x r]; [reflexivity|]. pose proof (F2 x (or_introl eq_refl)) as I. rewrite E in I. destruct I.
  - intros g G. apply upd_in in G. cbn [snd]. destruct G as [(h & H & E & ->)|[G NE]].
    + rewrite FB. cbn [filter snd]. rewrite E, Z.eqb_refl. destruct (F1 h) as (_ & _ & _ & _ & _ & -> & _). rewrite (sv_use _ _ _ V h H). rewrite E. cbn [length]. lia.
    + cbn [filter snd]. destruct (Z.eqb_spec b (gbase g)); [congruence|]. apply (sv_use _ _ _ V). exact G.
  - intros N g i G I. assert (Q : forall x, In x (held L) \/ In x (freed s) -> ((a, b) = x \/ In x (held L)) \/ In x fr).
    { intros x [X|X]; [auto|]. destruct (F7 N x X); auto. }
    apply upd_in in G. destruct G as [(h & H & E & ->)|[G NE]].
    + rewrite SL, FB. destruct (Z.lt_ge_cases i (pos h)) as [LT|GE]; [apply Q, (sv_all _ _ _ V N); [exact H | lia]|].
      left. left. rewrite (F8 N h i H E) by lia. rewrite E. reflexivity.
    + apply Q, (sv_all _ _ _ V N); assumption.
Qed.
Lemma last_in : forall (A : Type) (l : list A) d, l <> [] -> In (last l d) l.
Proof. intros A l d N. destruct (exists_last N) as (l' & x & ->). rewrite last_last. apply in_or_app. right. left. reflexivity. Qed.

(** every system call on the way *)
Definition evok (s : sstate) (L : list sev) (e : sev) : Prop :=
  match e with
  | SProt a n => (exists g, In g (groups s) /\ gbase g <= a /\ a + n <= gbase g + allocsz g) /\ forall x, In x (held L) -> fst x + stacksz m <= a \/ a + n <= fst x
  | _ => True
  end.
Lemma get_slot_inv : forall s L g p1 p2 e0 r s' e, sinv m s L -> In g (groups s) -> pos g < cap g -> (nofree m = false -> freed s = []) ->
  get_slot m g p1 p2 s e0 = (r, s', e) -> exists e', e = e' ++ e0 /\ sinv m s' (e' ++ L) /\ Forall (evok s L) e'.
Proof.
  intros s L g p1 p2 e0 r s' e V G PC FE E. pose proof (sv_gok _ _ _ V g G) as K. unfold get_slot in E.
  pose proof (gk_pos _ _ K) as KP.
  rewrite (slot_w64 g (pos g) K ltac:(lia) (or_introl PC)) in E.
  assert (FR : freed s = []) by (destruct (nofree m) eqn:N; [exact (sv_nofree _ _ _ V N) | exact (FE eq_refl)]).
  pose proof (slot_in g (pos g) K ltac:(lia)) as [SI1 SI2]. pose proof gap_pos as GP. pose proof step_pos as SP.
  assert (PR : forall d, d = slot m g (pos g) - ggapsz g \/ d = slot m g (pos g) + stacksz m -> evok s L (SProt d (ggapsz g))).
  { intros d D. rewrite (gk_gap _ _ K) in *. cbn. split; [exists g; destruct FT; split; [exact G|]; destruct D; subst d; lia|].
    intros x X. destruct (sv_slot _ _ _ V x (or_introl X)) as (h & i & H & B & I & A). rewrite A. pose proof (sv_gok _ _ _ V h H) as KH.
    pose proof (gk_pos _ _ KH) as KHP. pose proof (slot_in h i KH ltac:(lia)) as [SJ1 SJ2]. pose proof (ft_stack _ FT). pose proof (ft_page _ FT).
    destruct (Z.eq_dec (gbase h) (gbase g)) as [Q|Q].
    - assert (h = g) by (eapply base_inj; eassumption). subst h. unfold slot in *. destruct D; subst d; nia.
    - destruct (sv_dis _ _ _ V h g H G Q); destruct D; subst d; lia. }
  assert (DN : sinv m (mkss (upd_group (gbase g) take (groups s)) (freed s)) (SGet (slot m g (pos g)) (gbase g) :: L)).
  { apply get_inv; try assumption.
    - intros h. cbn. repeat (split; [reflexivity|]). lia.
    - auto.
    - exact (sv_f _ _ _ V).
    - intros x [X|X]; [|rewrite FR in X; destruct X]. destruct (sv_slot _ _ _ V x (or_introl X)) as (h & i & H & B & I & A). rewrite A. intros Q.
      pose proof (gk_pos _ _ (sv_gok _ _ _ V h H)). destruct (slot_inj s L h g i (pos g) V H G ltac:(lia) ltac:(lia) Q) as [Q1 Q2].
      assert (h = g) by (eapply base_inj; eassumption). specialize (Q2 H1). subst h. lia.
    - intros h H B. assert (h = g) by (eapply base_inj; eassumption). subst h. cbn. split; [lia|]. exists (pos g). split; [lia | reflexivity].
    - exists g. auto.
    - intros N x X. rewrite FR in X. destruct X.
    - intros N h i H B I. assert (h = g) by (eapply base_inj; eassumption). subst h. cbn in I. assert (i = pos g) by lia. subst i. reflexivity. }
  assert (NP : forall e', (forall x, In x e' -> exists a n, x = SProt a n) -> forall s0 L0, sinv m s0 L0 -> sinv m s0 (e' ++ L0)).
  { clear. intros e' P s0 L0 V. assert (Q : held (e' ++ L0) = held L0 /\ mapped (e' ++ L0) = mapped L0).
    { induction e' as [|x r IH]; [auto|]. destruct (P x (or_introl eq_refl)) as (a & n & ->). cbn. apply IH. intros y Y. apply P. right. exact Y. }
    destruct Q as [Q1 Q2]. destruct V. split; rewrite ?Q1, ?Q2; assumption. }
  assert (NP2 : forall e', (forall x, In x e' -> exists a n, x = SProt a n) -> forall s0 x L0, sinv m s0 (x :: L0) -> sinv m s0 (x :: e' ++ L0)).
  { clear. intros e' P s0 x L0 V. assert (Q : held (x :: e' ++ L0) = held (x :: L0) /\ mapped (x :: e' ++ L0) = mapped (x :: L0)).
    { assert (Q : held (e' ++ L0) = held L0 /\ mapped (e' ++ L0) = mapped L0).
      { induction e' as [|y r IH]; [auto|]. destruct (P y (or_introl eq_refl)) as (a & n & ->). cbn. apply IH. intros z Z. apply P. right. exact Z. }
      destruct Q as [Q1 Q2]. destruct x; cbn; rewrite ?Q1, ?Q2; auto. }
    destruct Q as [Q1 Q2]. destruct V. split; rewrite ?Q1, ?Q2; assumption. }
  destruct (if gapsz m =? 0 then false else useguards m).
  - destruct (slot m g (pos g) =? stack0 g) eqn:FI.
    + destruct (negb p1).
      { injection E as <- <- <-. exists [SProt (slot m g (pos g) - ggapsz g) (ggapsz g)]. split; [reflexivity|]. split.
        - apply (NP [_]); [intros x [<-|[]]; eauto | exact V]. 
        - constructor; [apply PR; auto | constructor]. }
      destruct (negb p2); injection E as <- <- <-.
      * exists [SProt (slot m g (pos g) + stacksz m) (ggapsz g); SProt (slot m g (pos g) - ggapsz g) (ggapsz g)]. split; [reflexivity|]. split.
        -- apply (NP [_; _]); [intros x [<-|[<-|[]]]; eauto | exact V].
        -- constructor; [apply PR; auto | constructor; [apply PR; auto | constructor]].
      * exists [SGet (slot m g (pos g)) (gbase g); SProt (slot m g (pos g) + stacksz m) (ggapsz g); SProt (slot m g (pos g) - ggapsz g) (ggapsz g)]. split; [reflexivity|]. split.
        -- apply (NP2 [_; _]); [intros x [<-|[<-|[]]]; eauto | exact DN].
        -- constructor; [exact Logic.I|]. constructor; [apply PR; auto | constructor; [apply PR; auto | constructor]].
    + cbn [negb] in E. destruct (negb p2); injection E as <- <- <-.
      * exists [SProt (slot m g (pos g) + stacksz m) (ggapsz g)]. split; [reflexivity|]. split.
        -- apply (NP [_]); [intros x [<-|[]]; eauto | exact V].
        -- constructor; [apply PR; auto | constructor].
      * exists [SGet (slot m g (pos g)) (gbase g); SProt (slot m g (pos g) + stacksz m) (ggapsz g)]. split; [reflexivity|]. split.
        -- apply (NP2 [_]); [intros x [<-|[]]; eauto | exact DN].
        -- constructor; [exact Logic.I|]. constructor; [apply PR; auto | constructor].
  - injection E as <- <- <-. exists [SGet (slot m g (pos g)) (gbase g)]. split; [reflexivity|]. split; [exact DN | repeat constructor].
Qed.

Lemma mapped_new : forall s L c base, sinv m s L -> 0 < c <= maxcap m -> mmap_ok (groups s) base (group_size m c) = true ->
  sinv m (mkss (groups s ++ [group_new m c base]) (freed s)) (SMap base (group_size m c) :: L).
Proof.
  intros s L c base V C OK. unfold mmap_ok in OK. apply andb_true_iff in OK. destruct OK as [OK FA]. apply andb_true_iff in OK. destruct OK as [B1 B2].
  apply Z.ltb_lt in B1. apply Z.leb_le in B2. rewrite forallb_forall in FA. pose proof off_pos as OP. pose proof gap_pos as GP. pose proof step_pos as SP.
  rewrite size_eq in * by lia.
  assert (DJ : forall g, In g (groups s) -> base + (group_off m + (stacksz m + group_gap m) * c) <= gbase g \/ gbase g + allocsz g <= base).
  { intros g G. specialize (FA g G). unfold disjoint in FA. apply orb_true_iff in FA. destruct FA as [F|F]; apply Z.leb_le in F; auto. }
  assert (AP : forall g, In g (groups s) -> 0 < allocsz g) by (intros g G; destruct (sv_gok _ _ _ V g G); nia).
  assert (NB : forall g, In g (groups s) -> gbase g <> base).
  { intros g G Q. pose proof (AP g G). destruct (DJ g G); nia. }
  assert (K : gok m (group_new m c base)).
  { unfold group_new. rewrite size_eq by lia. split; cbn [gbase allocsz ggapsz stack0 cap pos use]; try lia. unfold w64. apply Z.mod_small. nia. }
  split; cbn [groups freed held mapped].
  - intros g G. apply in_app_or in G. destruct G as [G|[<-|[]]]; [exact (sv_gok _ _ _ V g G) | exact K].
  - rewrite map_app. cbn. assert (Q : forall (l : list Z) x, NoDup l -> ~ In x l -> NoDup (l ++ [x])).
    { clear. induction l as [|y l IH]; intros x N I; [constructor; [intros [] | constructor]|]. cbn. apply NoDup_cons_iff in N. destruct N as [N1 N2]. constructor.
      - intros Q. apply in_app_or in Q. destruct Q as [Q|[<-|[]]]; [exact (N1 Q) | apply I; left; reflexivity].
      - apply IH; [exact N2 | intros Q; apply I; right; exact Q]. }
    apply Q; [exact (sv_nd _ _ _ V)|]. intros I. apply in_map_iff in I. destruct I as (g & E & I). exact (NB g I E).
  - intros g h G H NE. apply in_app_or in G. apply in_app_or in H.
    destruct G as [G|[<-|[]]], H as [H|[<-|[]]]; [exact (sv_dis _ _ _ V g h G H NE) | | |contradiction]; cbn [group_new gbase allocsz]; rewrite size_eq by lia.
    + destruct (DJ g G); lia.
    + destruct (DJ h H); lia.
  - intros x. cbn [In]. rewrite (sv_map _ _ _ V x). split.
    + intros [<-|(g & G & ->)]; [exists (group_new m c base); split; [apply in_or_app; right; left; reflexivity | cbn; rewrite size_eq by lia; reflexivity] | exists g; split; [apply in_or_app; left; exact G | reflexivity]].
    + intros (g & G & ->). apply in_app_or in G. destruct G as [G|[<-|[]]]; [right; eauto | left; cbn; rewrite size_eq by lia; reflexivity].
  - intros x X. destruct (sv_slot _ _ _ V x X) as (g & i & G & Q). exists g, i. split; [apply in_or_app; left; exact G | exact Q].
  - exact (sv_h _ _ _ V).
  - exact (sv_f _ _ _ V).
  - exact (sv_hf _ _ _ V).
  - exact (sv_nofree _ _ _ V).
  - intros g G. apply in_app_or in G. destruct G as [G|[<-|[]]]; [exact (sv_use _ _ _ V g G)|]. cbn [group_new use gbase].
    assert (Q : filter (fun x => snd x =? base) (held L) = []); [|rewrite Q; reflexivity].
    assert (N : forall x, In x (held L) -> snd x <> base). { intros x X. destruct (sv_slot _ _ _ V x (or_introl X)) as (g & i & G & E & _). rewrite <- E. apply NB. exact G. }
    clear - N. induction (held L) as [|x l IH]; [reflexivity|]. cbn. destruct (Z.eqb_spec (snd x) base); [exfalso; exact (N x (or_introl eq_refl) e)|]. apply IH. intros y Y. apply N. right. exact Y.
  - intros N g i G I. apply in_app_or in G. destruct G as [G|[<-|[]]]; [exact (sv_all _ _ _ V N g i G I) | cbn in I; lia].
Qed.

Lemma get_step : forall s L mm p1 p2 r s' e, sinv m s L -> stack_get m mm p1 p2 s = (r, s', e) -> sinv m s' (e ++ L) /\
  (forall e1 x e2, e = e1 ++ x :: e2 -> match x with SProt a n => (exists y, In y (mapped (e2 ++ L)) /\ fst y <= a /\ a + n <= fst y + snd y) /\ forall x, In x (held L) -> fst x + stacksz m <= a \/ a + n <= fst x | _ => True end).
Proof.
  intros s L mm p1 p2 r s' e V E. unfold stack_get in E.
  destruct (if nofree m then [] else freed s) as [|[a b] rs] eqn:FR.
  - assert (FE : nofree m = false -> freed s = []) by (intros N; rewrite N in FR; exact FR). clear FR.
    set (tail := last (groups s) (mkg 0 0 0 0 0 0 0)) in *.
    assert (PROT : forall s0 L0 e' e0, mapped L0 = map (fun g => (gbase g, allocsz g)) [] \/ True -> (forall g, In g (groups s0) -> In (gbase g, allocsz g) (mapped L0)) -> held L0 = held L -> L0 = e0 ++ L ->
      Forall (evok s0 L0) e' -> (forall x, In x e' -> match x with SMap _ _ | SUnmap _ _ => False | _ => True end) -> (forall x, In x e0 -> match x with SProt _ _ => False | _ => True end) ->
      forall e1 x e2, e' ++ e0 = e1 ++ x :: e2 -> match x with SProt a n => (exists y, In y (mapped (e2 ++ L)) /\ fst y <= a /\ a + n <= fst y + snd y) /\ forall x, In x (held L) -> fst x + stacksz m <= a \/ a + n <= fst x | _ => True end).
    { clear. intros s0 L0 e' e0 _ GM HL LE FA NM NP e1 x e2 E. assert (Q : In x e' /\ (exists e3, e2 = e3 ++ e0 /\ forall y, In y e3 -> In y e') \/ In x e0).
      { clear - E. revert e1 E. induction e' as [|y e' IH]; intros e1 E; [right; cbn in E; rewrite E; apply in_or_app; right; left; reflexivity|]. destruct e1 as [|z e1]; cbn in E.
        - injection E as -> <-. left. split; [left; reflexivity|]. exists e'. split; [reflexivity|]. intros z Z. right. exact Z.
        - injection E as -> E. destruct (IH e1 E) as [[I (e3 & E3 & S3)]|I]; [left; split; [right; exact I|]; exists e3; split; [exact E3 | intros q Q; right; apply S3; exact Q] | right; exact I]. }
      destruct x; try exact Logic.I. destruct Q as [[I (e3 & -> & S3)]|I]; [|destruct (NP _ I)]. rewrite Forall_forall in FA. specialize (FA _ I). cbn in FA. destruct FA as [(g & G & FA1) FA2].
      split; [|rewrite <- HL; exact FA2]. exists (gbase g, allocsz g). cbn [fst snd]. split; [|exact FA1].
      rewrite <- app_assoc, <- LE. assert (MM : mapped (e3 ++ L0) = mapped L0).
      { clear - S3 NM. induction e3 as [|y e3 IH]; [reflexivity|]. cbn. pose proof (NM y (S3 y (or_introl eq_refl))) as Q. rewrite IH by (intros q QI; apply S3; right; exact QI). destruct y; try reflexivity; destruct Q. }
      rewrite MM. apply GM. exact G. }
    assert (MP : forall s0 L0, sinv m s0 L0 -> forall g, In g (groups s0) -> In (gbase g, allocsz g) (mapped L0)) by (intros s0 L0 V0 g G; apply (sv_map _ _ _ V0); eauto).
    assert (NMU : forall g p1 p2 s0 e0 r s' e e', get_slot m g p1 p2 s0 e0 = (r, s', e) -> e = e' ++ e0 -> forall x, In x e' -> match x with SMap _ _ | SUnmap _ _ => False | _ => True end).
    { clear. intros g p1 p2 s0 e0 r s' e e' E EE x X. unfold get_slot in E.
      assert (Q : forall l, e = l ++ e0 -> (forall x, In x l -> match x with SMap _ _ | SUnmap _ _ => False | _ => True end) -> match x with SMap _ _ | SUnmap _ _ => False | _ => True end).
      { intros l EL NL. apply NL. rewrite EL in EE. apply app_inv_tail in EE. subst. exact X. }
      destruct (if gapsz m =? 0 then false else useguards m); [|injection E as <- <- <-; apply (Q [SGet _ _] eq_refl); intros y [<-|[]]; exact Logic.I].
      destruct (_ =? stack0 g).
      - destruct (negb p1); [injection E as <- <- <-; apply (Q [_] eq_refl); intros y [<-|[]]; exact Logic.I|].
        destruct (negb p2); injection E as <- <- <-; [apply (Q [_;_] eq_refl); intros y [<-|[<-|[]]]; exact Logic.I | apply (Q [_;_;_] eq_refl); intros y [<-|[<-|[<-|[]]]]; exact Logic.I].
      - cbn [negb] in E. destruct (negb p2); injection E as <- <- <-; [apply (Q [_] eq_refl); intros y [<-|[]]; exact Logic.I | apply (Q [_;_] eq_refl); intros y [<-|[<-|[]]]; exact Logic.I]. }
    destruct (Z.eqb_spec (pos tail) (cap tail)) as [PC|PC].
    + set (c0 := if cap tail =? 0 then defcap m else w64 (cap tail * 2)) in *. set (c := if maxcap m <? c0 then maxcap m else c0) in *.
      assert (CP : 0 < c <= maxcap m).
      { pose proof (ft_max _ FT). pose proof (ft_def _ FT). assert (0 < c0).
        { subst c0. destruct (Z.eqb_spec (cap tail) 0); [assumption|]. assert (TI : In tail (groups s)).
          { subst tail. apply last_in. intros Q. apply n. rewrite Q. reflexivity. }
          destruct (sv_gok _ _ _ V tail TI). assert (2 * maxcap m < M64) by (destruct FT; nia). unfold w64. rewrite Z.mod_small by lia. lia. }
        subst c. destruct (Z.ltb_spec (maxcap m) c0); lia. }
      destruct mm as [base|]; [|injection E as <- <- <-; split; [exact V | intros [|? ?] x e2 Q; discriminate]].
      destruct (mmap_ok _ _ _) eqn:OK; [|injection E as <- <- <-; split; [exact V | intros [|? ?] x e2 Q; discriminate]].
      pose proof (mapped_new s L c base V CP OK) as V'. pose proof E as E0. apply (get_slot_inv _ (SMap base (group_size m c) :: L)) in E; [|exact V'| | |].
      * destruct E as (e' & -> & VV & FA). split; [rewrite <- app_assoc; exact VV|].
        eapply PROT; [right; exact Logic.I | apply (MP _ _ V') | reflexivity | reflexivity | exact FA | eapply NMU; [exact E0 | reflexivity] | intros x [<-|[]]; exact Logic.I].
      * cbn [groups]. apply in_or_app. right. left. reflexivity.
      * cbn. lia.
      * exact FE.
    + assert (TI : In tail (groups s)).
      { subst tail. apply last_in. intros Q. apply PC. rewrite Q. reflexivity. }
      pose proof (gk_pos _ _ (sv_gok _ _ _ V tail TI)). pose proof E as E0. apply (get_slot_inv _ L) in E; [|exact V | exact TI | lia | exact FE].
      destruct E as (e' & -> & VV & FA). rewrite app_nil_r in *. split; [exact VV|]. intros e1 x e2 Q.
      eapply (PROT s L e' []); [right; exact Logic.I | apply (MP _ _ V) | reflexivity | reflexivity | exact FA | eapply NMU; [exact E0 | symmetry; apply app_nil_r] | intros z [] | rewrite app_nil_r; exact Q].
  - destruct (nofree m) eqn:N; [discriminate|]. injection E as <- <- <-. cbn [app]. split.
    + destruct (sv_slot _ _ _ V (a, b)) as (g & i & G & B & I & A); [right; rewrite FR; left; reflexivity|]. cbn [fst snd] in A, B.
      apply get_inv; try assumption.
      * intros h. cbn. repeat (split; [reflexivity|]). lia.
      * intros x X. rewrite FR. right. exact X.
      * pose proof (sv_f _ _ _ V) as F. rewrite FR in F. cbn in F. apply NoDup_cons_iff in F. apply F.
      * intros x [X|X] Q.
        -- apply (sv_hf _ _ _ V x (a, b) X); [rewrite FR; left; reflexivity | exact Q].
        -- pose proof (sv_f _ _ _ V) as F. rewrite FR in F. cbn in F. apply NoDup_cons_iff in F. apply F. rewrite <- Q. apply in_map. exact X.
      * intros h H HB. cbn. pose proof (gk_pos _ _ (sv_gok _ _ _ V h H)). split; [lia|]. assert (h = g) by (eapply base_inj; try eassumption; congruence). subst h. exists i. auto.
      * exists g. auto.
      * intros _ x X. rewrite FR in X. destruct X as [<-|X]; auto.
      * intros _ h j H HB J. cbn in J. lia.
    + intros [|? [|? ?]] x e2 Q; try discriminate. injection Q as <- _. exact Logic.I.
Qed.

Lemma NoDup_map_filter : forall (A B : Type) (f : A -> B) p l, NoDup (map f l) -> NoDup (map f (filter p l)).
Proof.
  induction l as [|x l IH]; cbn; [auto|]. intros N. apply NoDup_cons_iff in N. destruct N as [N1 N2]. destruct (p x); [|auto]. cbn. constructor; [|auto].
  intros I. apply N1. apply in_map_iff in I. destruct I as (y & E & I). apply filter_In in I. rewrite <- E. apply in_map. apply I.
Qed.
Lemma filter_id : forall (A : Type) (p : A -> bool) l, (forall x, In x l -> p x = true) -> filter p l = l.
Proof. induction l as [|x l IH]; cbn; [auto|]. intros H. rewrite (H x (or_introl eq_refl)). f_equal. apply IH. intros y Y. apply H. right. exact Y. Qed.
Lemma count_remove : forall l (a b c : Z), NoDup (map fst l) -> In (a, b) l ->
  Z.of_nat (length (filter (fun x => snd x =? c) (filter (fun x => negb (fst x =? a)) l))) = Z.of_nat (length (filter (fun x : stackref => snd x =? c) l)) - (if b =? c then 1 else 0).
Proof.
  induction l as [|[x y] l IH]; intros a b c N I; [destruct I|]. cbn in N. apply NoDup_cons_iff in N. destruct N as [N1 N2]. cbn [filter fst snd].
  destruct I as [E|I].
  - injection E as -> ->. rewrite Z.eqb_refl. cbn [negb]. rewrite (filter_id _ (fun x => negb (fst x =? a))).
    + destruct (b =? c); cbn [length]; lia.
    + intros z Z. destruct (Z.eqb_spec (fst z) a); [|reflexivity]. exfalso. apply N1. rewrite <- e. apply in_map. exact Z.
  - destruct (Z.eqb_spec x a) as [->|NE]; [exfalso; apply N1; change a with (fst (a, b)); apply in_map; exact I|]. cbn [negb filter snd].
    specialize (IH a b c N2 I). destruct (y =? c); cbn [length]; lia.
Qed.
Lemma unlink_ok : forall s L g l, sinv m s L -> In g (groups s) -> forall n i, 0 <= i -> i + Z.of_nat n <= pos g -> (forall j, i <= j < i + Z.of_nat n -> exists x, In x l /\ fst x = slot m g j) ->
  exists p, unlink n i m g l = Some (filter p l) /\ forall x, p x = true <-> forall j, i <= j < i + Z.of_nat n -> fst x <> slot m g j.
Proof.
  intros s L g l V G n. pose proof (sv_gok _ _ _ V g G) as K. revert l. induction n as [|n IH]; intros l i I P H; cbn [unlink].
  - exists (fun _ => true). rewrite filter_id by auto. split; [reflexivity|]. intros x. split; [intros _ j J; lia | auto].
  - rewrite slot_w64; [|exact K|lia|right; lia]. unfold freed_remove.
    assert (EX : existsb (fun x => fst x =? slot m g i) l = true).
    { apply existsb_exists. destruct (H i ltac:(lia)) as (x & X & E). exists x. split; [exact X | apply Z.eqb_eq; exact E]. }
    rewrite EX. destruct (IH (filter (fun x => negb (fst x =? slot m g i)) l) (i + 1) ltac:(lia) ltac:(lia)) as (p & E & PP).
    { intros j J. destruct (H j ltac:(lia)) as (x & X & E). exists x. split; [|exact E]. apply filter_In. split; [exact X|]. rewrite E.
      destruct (Z.eqb_spec (slot m g j) (slot m g i)) as [Q|Q]; [|reflexivity]. unfold slot in Q. pose proof step_pos. nia. }
    exists (fun x => negb (fst x =? slot m g i) && p x). split.
    + rewrite E. f_equal. clear. induction l as [|x l IH]; cbn; [reflexivity|]. destruct (negb _); cbn; [destruct (p x); cbn; rewrite IH; reflexivity | exact IH].
    + intros x. rewrite andb_true_iff, PP. destruct (Z.eqb_spec (fst x) (slot m g i)) as [Q|Q]; cbn [negb]; split.
      * intros [F _]. discriminate.
      * intros F. exfalso. exact (F i ltac:(lia) Q).
      * intros [_ F] j J. destruct (Z.eq_dec j i) as [->|NE]; [exact Q | apply F; lia].
      * intros F. split; [reflexivity | intros j J; apply F; lia].
Qed.
Lemma find_group : forall s L b g, sinv m s L -> In g (groups s) -> gbase g = b -> find (fun g => gbase g =? b) (groups s) = Some g.
Proof.
  intros s L b g V G B. destruct (find _ _) as [h|] eqn:F.
  - apply find_some in F. destruct F as [H E]. apply Z.eqb_eq in E. f_equal. eapply base_inj; try eassumption. congruence.
  - exfalso. apply (find_none _ _ F) in G. apply Z.eqb_neq in G. contradiction.
Qed.
Lemma put_step : forall s L r, sinv m s L -> In r (held L) -> exists s' e, stack_put m r s = Some (s', e) /\ sinv m s' (e ++ L).
Proof.
  intros s L [a b] V R. destruct (sv_slot _ _ _ V (a, b) (or_introl R)) as (g & i & G & B & I & A). cbn [fst snd] in A, B.
  unfold stack_put. rewrite (find_group s L b g V G B).
  set (e0 := if norelease m then [] else if 0 <? (if nofree m then stacksz m else stacksz m - pagesz m) then [SRemap (if nofree m then a else a + pagesz m) (if nofree m then stacksz m else stacksz m - pagesz m)] else []).
  assert (HE : held (e0 ++ L) = held L /\ mapped (e0 ++ L) = mapped L) by (subst e0; destruct (norelease m); [auto|]; destruct (0 <? _); auto).
  assert (UH : forall c, Z.of_nat (length (filter (fun x => snd x =? c) (filter (fun x => negb (fst x =? a)) (held L)))) = Z.of_nat (length (filter (fun x : stackref => snd x =? c) (held L))) - (if b =? c then 1 else 0))
    by (intros c; apply count_remove; [exact (sv_h _ _ _ V) | exact R]).
  assert (HI : forall x, In x (filter (fun x => negb (fst x =? a)) (held L)) -> In x (held L) /\ fst x <> a).
  { intros x X. apply filter_In in X. destruct X as [X N]. split; [exact X|]. destruct (Z.eqb_spec (fst x) a); [discriminate | assumption]. }
  assert (HO : forall x, In x (held L) -> x = (a, b) \/ In x (filter (fun x => negb (fst x =? a)) (held L))).
  { intros x X. destruct (Z.eqb_spec (fst x) a) as [Q|Q].
    - left. pose proof (sv_h _ _ _ V) as N. clear - N R X Q. induction (held L) as [|y l IH]; [destruct X|]. cbn in N. apply NoDup_cons_iff in N. destruct N as [N1 N2].
      destruct R as [->|R], X as [->|X]; [reflexivity | | |auto]; exfalso; apply N1; [change (fst (a, b)) with a; rewrite <- Q; apply in_map; exact X | rewrite Q; change a with (fst (a, b)); apply in_map; exact R].
    - right. apply filter_In. split; [exact X|]. destruct (Z.eqb_spec (fst x) a); [contradiction | reflexivity]. }
  set (fr := if nofree m then freed s else (a, b) :: freed s).
  assert (FI : forall x, In x fr -> In x (freed s) \/ x = (a, b)) by (subst fr; intros x X; destruct (nofree m); [auto | destruct X as [<-|X]; auto]).
  assert (FN : NoDup (map fst fr)).
  { subst fr. destruct (nofree m); [exact (sv_f _ _ _ V)|]. cbn. constructor; [|exact (sv_f _ _ _ V)]. intros Q. apply in_map_iff in Q. destruct Q as (x & E & X). exact (sv_hf _ _ _ V (a, b) x R X (eq_sym E)). }
  assert (FH : forall x y, In x (filter (fun x => negb (fst x =? a)) (held L)) -> In y fr -> fst x <> fst y).
  { intros x y X Y. destruct (HI x X) as [X1 X2]. destruct (FI y Y) as [Y1| ->]; [exact (sv_hf _ _ _ V x y X1 Y1) | exact X2]. }
  assert (AL : nofree m = false -> forall h j, In h (groups s) -> 0 <= j < pos h -> In (slot m h j, gbase h) (filter (fun x => negb (fst x =? a)) (held L)) \/ In (slot m h j, gbase h) fr).
  { intros N h j H J. assert (FRE : fr = (a, b) :: freed s) by (subst fr; rewrite N; reflexivity). destruct (sv_all _ _ _ V N h j H J) as [Q|Q].
    - destruct (HO _ Q) as [E|Q']; [right; rewrite FRE; left; congruence | left; exact Q'].
    - right. rewrite FRE. right. exact Q. }
  pose proof (sv_use _ _ _ V g G) as US. rewrite B in US.
  assert (SLG : forall h j, slot m (giveup h) j = slot m h j) by reflexivity.
  destruct (Z.eqb_spec (use g - 1) 0) as [U0|U0].
  - (* the group goes *)
    assert (NH : forall x, In x (filter (fun x => negb (fst x =? a)) (held L)) -> snd x <> b).
    { intros x X E. pose proof (UH b) as Q. rewrite Z.eqb_refl in Q. assert (IN : In x (filter (fun x => snd x =? b) (filter (fun x => negb (fst x =? a)) (held L)))) by (apply filter_In; split; [exact X | apply Z.eqb_eq; exact E]).
      destruct (filter (fun x => snd x =? b) (filter (fun x => negb (fst x =? a)) (held L))); [destruct IN | cbn [length] in Q; lia]. }
    assert (UL : exists fr', (if nofree m then Some fr else unlink (Z.to_nat (pos g)) 0 m g fr) = Some fr' /\ (forall x, In x fr' -> In x fr /\ snd x <> b) /\ NoDup (map fst fr') /\
                 (forall x, In x fr -> snd x <> b -> In x fr')).
    { destruct (nofree m) eqn:N.
      - exists fr. assert (E : fr = []) by (subst fr; exact (sv_nofree _ _ _ V N)). rewrite E. split; [reflexivity|]. split; [intros x []|]. split; [constructor | intros x []].
      - pose proof (gk_pos _ _ (sv_gok _ _ _ V g G)) as GP0. destruct (unlink_ok s L g fr V G (Z.to_nat (pos g)) 0) as (p & E & PP); [lia | lia | |].
        + intros j J. destruct (AL eq_refl g j G ltac:(lia)) as [Q|Q]; [exfalso; exact (NH _ Q B) | exists (slot m g j, gbase g); auto].
        + exists (filter p fr). split; [exact E|]. split; [|split; [apply NoDup_map_filter; exact FN|]].
          * intros x X. apply filter_In in X. destruct X as [X P]. split; [exact X|]. intros SB. rewrite PP in P.
            assert (Q : exists g' i', In g' (groups s) /\ gbase g' = snd x /\ 0 <= i' < pos g' /\ fst x = slot m g' i').
            { destruct (FI x X) as [Y| ->]; [exact (sv_slot _ _ _ V x (or_intror Y)) | exists g, i; auto]. }
            destruct Q as (g' & i' & G' & B' & I' & A'). assert (g' = g) by (eapply base_inj; try eassumption; congruence). subst g'. exact (P i' ltac:(lia) A').
          * intros x X SB. apply filter_In. split; [exact X|]. apply PP. intros j J Q.
            assert (QQ : exists g' i', In g' (groups s) /\ gbase g' = snd x /\ 0 <= i' < pos g' /\ fst x = slot m g' i').
            { destruct (FI x X) as [Y| ->]; [exact (sv_slot _ _ _ V x (or_intror Y)) | exists g, i; auto]. }
            destruct QQ as (g' & i' & G' & B' & I' & A'). pose proof (gk_pos _ _ (sv_gok _ _ _ V g' G')). rewrite A' in Q.
            destruct (slot_inj s L g' g i' j V G' G ltac:(lia) ltac:(lia) Q) as [Q1 _]. congruence. }
    destruct UL as (fr' & -> & UL1 & UL2 & UL3). do 2 eexists. split; [reflexivity|]. fold e0.
    set (gs := filter (fun g0 => negb (gbase g0 =? b)) (upd_group b giveup (groups s))).
    assert (GI : forall h, In h gs <-> In h (groups s) /\ gbase h <> b).
    { intros h. subst gs. rewrite filter_In. destruct (Z.eqb_spec (gbase h) b) as [Q|Q]; cbn [negb].
      - split; [intros [_ F]; discriminate | intros [_ F]; contradiction].
      - split; [intros [H _]; split; [|exact Q]; apply upd_in in H; destruct H as [(h0 & _ & E & ->)|[H _]]; [cbn in Q; contradiction | exact H] | intros [H _]; split; [|reflexivity]].
        pose proof (upd_in' b giveup (groups s) h H) as UU. destruct (Z.eqb_spec (gbase h) b); [contradiction | exact UU]. }
    cbn [app]. destruct HE as [HE1 HE2].
    split; cbn [groups freed held mapped]; rewrite ?HE1, ?HE2.
    + intros h H. apply GI in H. apply (sv_gok _ _ _ V). apply H.
    + subst gs. apply NoDup_map_filter. rewrite upd_map by reflexivity. exact (sv_nd _ _ _ V).
    + intros h k H KK NE. apply GI in H. apply GI in KK. apply (sv_dis _ _ _ V); tauto.
    + intros x. rewrite filter_In, (sv_map _ _ _ V x). split.
      * intros [(h & H & ->) N]. exists h. split; [|reflexivity]. apply GI. split; [exact H|]. cbn [fst] in N. destruct (Z.eqb_spec (gbase h) b); [discriminate | assumption].
      * intros (h & H & ->). apply GI in H. destruct H as [H N]. split; [eauto|]. cbn [fst]. destruct (Z.eqb_spec (gbase h) b); [contradiction | reflexivity].
    + intros x X. assert (Q : (In x (held L) \/ In x (freed s)) /\ snd x <> b).
      { destruct X as [X|X]; [split; [left; apply HI; exact X | exact (NH x X)]|]. destruct (UL1 x X) as [X1 X2]. split; [|exact X2]. destruct (FI x X1) as [Y| ->]; [auto | cbn in X2; contradiction]. }
      destruct Q as [Q NB]. destruct (sv_slot _ _ _ V x Q) as (h & j & H & E & J). exists h, j. split; [apply GI; split; [exact H | congruence] | auto].
    + apply NoDup_map_filter. exact (sv_h _ _ _ V).
    + exact UL2.
    + intros x y X Y. apply FH; [exact X | apply UL1; exact Y].
    + intros N. destruct fr' as [|x l]; [reflexivity|]. destruct (UL1 x (or_introl eq_refl)) as [X _]. subst fr. rewrite N, (sv_nofree _ _ _ V N) in X. destruct X.
    + intros h H. apply GI in H. destruct H as [H NB]. rewrite UH. destruct (Z.eqb_spec b (gbase h)); [congruence|]. rewrite (sv_use _ _ _ V h H). lia.
    + intros N h j H J. apply GI in H. destruct H as [H NB]. destruct (AL N h j H J) as [Q|Q]; [left; exact Q | right; apply UL3; [exact Q | exact NB]].
  - do 2 eexists. split; [reflexivity|]. fold e0. cbn [app]. destruct HE as [HE1 HE2].
    assert (LIFT : forall h, In h (groups s) -> exists h', In h' (upd_group b giveup (groups s)) /\ gbase h' = gbase h /\ allocsz h' = allocsz h /\ pos h' = pos h /\ forall j, slot m h' j = slot m h j).
    { intros h H. exists (if gbase h =? b then giveup h else h). split; [apply upd_in'; exact H|]. destruct (_ =? _); auto. }
    assert (DOWN : forall h', In h' (upd_group b giveup (groups s)) -> exists h, In h (groups s) /\ gbase h' = gbase h /\ allocsz h' = allocsz h /\ pos h' = pos h /\ (forall j, slot m h' j = slot m h j) /\
                     ggapsz h' = ggapsz h /\ stack0 h' = stack0 h /\ cap h' = cap h /\ use h' = use h - (if gbase h =? b then 1 else 0)).
    { intros h' H. apply upd_in in H. destruct H as [(h & H & E & ->)|[H N]]; [exists h | exists h']; cbn; repeat (split; [assumption || reflexivity|]).
      - rewrite E, Z.eqb_refl. reflexivity.
      - destruct (Z.eqb_spec (gbase h') b); [contradiction | lia]. }
    split; cbn [groups freed held mapped]; rewrite ?HE1, ?HE2.
    + intros h' H. destruct (DOWN h' H) as (h & H0 & E1 & E2 & E3 & _ & E4 & E5 & E6 & _). destruct (sv_gok _ _ _ V h H0). split; rewrite ?E1, ?E2, ?E3, ?E4, ?E5, ?E6; assumption.
    + rewrite upd_map by reflexivity. exact (sv_nd _ _ _ V).
    + intros h' k' H KK NE. destruct (DOWN h' H) as (h & H0 & E1 & E2 & _). destruct (DOWN k' KK) as (k & K0 & F1 & F2 & _). rewrite E1, E2, F1, F2. apply (sv_dis _ _ _ V); try assumption. congruence.
    + intros x. rewrite (sv_map _ _ _ V x). split.
      * intros (h & H & ->). destruct (LIFT h H) as (h' & H' & E1 & E2 & _). exists h'. split; [exact H' | congruence].
      * intros (h' & H & ->). destruct (DOWN h' H) as (h & H0 & E1 & E2 & _). exists h. split; [exact H0 | congruence].
    + intros x X. assert (Q : exists h j, In h (groups s) /\ gbase h = snd x /\ 0 <= j < pos h /\ fst x = slot m h j).
      { destruct X as [X|X]; [exact (sv_slot _ _ _ V x (or_introl (proj1 (HI x X))))|]. destruct (FI x X) as [Y| ->]; [exact (sv_slot _ _ _ V x (or_intror Y)) | exists g, i; auto]. }
      destruct Q as (h & j & H & Q1 & Q2 & Q3). destruct (LIFT h H) as (h' & H' & E1 & E2 & E3 & E4). exists h', j. split; [exact H'|]. rewrite E1, E3, E4. auto.
    + apply NoDup_map_filter. exact (sv_h _ _ _ V).
    + exact FN.
    + exact FH.
    + intros N. subst fr. rewrite N. exact (sv_nofree _ _ _ V N).
    + intros h' H. destruct (DOWN h' H) as (h & H0 & E1 & _ & _ & _ & _ & _ & _ & E9). rewrite E9, E1, UH, (sv_use _ _ _ V h H0). rewrite Z.eqb_sym. lia.
    + intros N h' j H J. destruct (DOWN h' H) as (h & H0 & E1 & _ & E3 & E4 & _). rewrite E1, E4. apply AL; [exact N | exact H0 | lia].
Qed.
Lemma sinv_init : sinv m (mkss [] []) [].
Proof. split; cbn; try (intros; contradiction); try constructor; try tauto; try (intros (g & [] & _)); try reflexivity. Qed.
Lemma hist_inv : forall s L, shist m s L -> sinv m s L.
Proof.
  intros s L H. induction H as [|s L o s' e H IH D E]; [exact sinv_init|]. destruct o as [mm p1 p2|r]; cbn [sstep disciplined] in *.
  - destruct (stack_get m mm p1 p2 s) as [[r s1] e1] eqn:Q. injection E as <- <-. exact (proj1 (get_step _ _ _ _ _ _ _ _ IH Q)).
  - destruct (put_step _ _ _ IH D) as (s1 & e1 & Q & V). rewrite E in Q. injection Q as <- <-. exact V.
Qed.

(** Every stack in use lies inside one mapped range, with at least the configured gap
    inside that range on either side. *)
Theorem C39_inside_mapped : forall s L, shist m s L -> forall x, In x (held L) ->
  exists y, In y (mapped L) /\ fst y + gapsz m <= fst x /\ fst x + stacksz m + gapsz m <= fst y + snd y.
Proof.
  intros s L H x X. apply hist_inv in H. destruct (sv_slot _ _ _ H x (or_introl X)) as (g & i & G & B & I & A).
  pose proof (sv_gok _ _ _ H g G) as K. pose proof (gk_pos _ _ K). pose proof (slot_in g i K ltac:(lia)) as [S1 S2]. pose proof (ft_ge _ FT).
  exists (gbase g, allocsz g). split; [apply (sv_map _ _ _ H); eauto|]. cbn [fst snd]. rewrite A. lia.
Qed.
(** Two stacks in use never overlap and are at least the configured gap apart; no stack
    is handed out twice. *)
Theorem C39_disjoint : forall s L, shist m s L -> NoDup (map fst (held L)) /\
  forall x y, In x (held L) -> In y (held L) -> fst x <> fst y -> fst x + stacksz m + gapsz m <= fst y \/ fst y + stacksz m + gapsz m <= fst x.
Proof.
  intros s L H. apply hist_inv in H. split; [exact (sv_h _ _ _ H)|]. intros x y X Y NE.
  destruct (sv_slot _ _ _ H x (or_introl X)) as (g & i & G & B & I & A). destruct (sv_slot _ _ _ H y (or_introl Y)) as (h & j & G' & B' & J & A').
  pose proof (sv_gok _ _ _ H g G) as K. pose proof (gk_pos _ _ K). pose proof (slot_in g i K ltac:(lia)) as [S1 S2].
  pose proof (sv_gok _ _ _ H h G') as K'. pose proof (gk_pos _ _ K'). pose proof (slot_in h j K' ltac:(lia)) as [S3 S4].
  pose proof (ft_ge _ FT). pose proof gap_pos. rewrite A, A' in *. destruct (Z.eq_dec (gbase g) (gbase h)) as [Q|Q].
  - assert (g = h) by (eapply base_inj; eassumption). subst h. unfold slot in *. assert (i <> j) by congruence. pose proof step_pos. nia.
  - destruct (sv_dis _ _ _ H g h G G' Q); lia.
Qed.
(** Getting and giving back stacks never goes wrong. *)
Theorem C39_no_ub : forall s L o, shist m s L -> disciplined L o -> exists s' e, sstep m s o = Some (s', e).
Proof.
  intros s L o H D. apply hist_inv in H. destruct o as [mm p1 p2|r]; cbn [sstep].
  - destruct (stack_get m mm p1 p2 s) as [[r s1] e1]. eauto.
  - destruct (put_step _ _ _ H D) as (s1 & e1 & Q & _). eauto.
Qed.
(** Memory is unmapped only if no stack in use lies in it; guard pages are set only
    inside mapped memory and outside all stacks in use; a give-back releases only pages of
    the stack given back. *)
Theorem C39_system_calls : forall s L o s' e, shist m s L -> disciplined L o -> sstep m s o = Some (s', e) -> forall e1 x e2, e = e1 ++ x :: e2 ->
  match x with
  | SUnmap a n => In (a, n) (mapped L) /\ forall y, In y (held (e ++ L)) -> fst y + stacksz m <= a \/ a + n <= fst y
  | SProt a n => (exists y, In y (mapped (e2 ++ L)) /\ fst y <= a /\ a + n <= fst y + snd y) /\ forall y, In y (held L) -> fst y + stacksz m <= a \/ a + n <= fst y
  | SRemap a n => exists r, o = OPut r /\ fst r <= a /\ a + n <= fst r + stacksz m
  | SGet a b => ~ In a (map fst (held L))
  | _ => True
  end.
Proof.
  intros s L o s' e H D E e1 x e2 EE. assert (H' : shist m s' (e ++ L)) by (econstructor; eassumption). pose proof (hist_inv _ _ H) as V. pose proof (hist_inv _ _ H') as V'.
  destruct o as [mm p1 p2|r]; cbn [sstep disciplined] in *.
  - destruct (stack_get m mm p1 p2 s) as [[r s1] e0] eqn:Q. injection E as <- <-. pose proof (proj2 (get_step _ _ _ _ _ _ _ _ V Q) e1 x e2 EE) as P.
    assert (NN : match x with SUnmap _ _ | SRemap _ _ => False | SGet a b => exists e3, e0 = SGet a b :: e3 /\ forall y, In y e3 -> match y with SGet _ _ | SPut _ _ => False | _ => True end | _ => True end).
    { assert (IX : In x e0) by (rewrite EE; apply in_or_app; right; left; reflexivity). clear - Q IX. unfold stack_get in Q.
      assert (GS : forall g s0 ev0 r s1 e0, (forall y, In y ev0 -> match y with SMap _ _ => True | _ => False end) -> get_slot m g p1 p2 s0 ev0 = (r, s1, e0) -> In x e0 ->
        match x with SUnmap _ _ | SRemap _ _ => False | SGet a b => exists e3, e0 = SGet a b :: e3 /\ forall y, In y e3 -> match y with SGet _ _ | SPut _ _ => False | _ => True end | _ => True end).
      { clear. intros g s0 ev0 r s1 e0 EV Q IX. unfold get_slot in Q.
        assert (MX : In x ev0 -> match x with SUnmap _ _ | SRemap _ _ => False | SGet a b => exists e3, e0 = SGet a b :: e3 /\ forall y, In y e3 -> match y with SGet _ _ | SPut _ _ => False | _ => True end | _ => True end).
        { intros I. specialize (EV x I). destruct x; try exact Logic.I; destruct EV. }
        assert (MY : forall y, In y ev0 -> match y with SGet _ _ | SPut _ _ => False | _ => True end) by (intros y Y; specialize (EV y Y); destruct y; auto).
        destruct (if gapsz m =? 0 then false else useguards m).
        - destruct (_ =? stack0 g).
          + destruct (negb p1); [injection Q as <- <- <-; destruct IX as [<-|IX]; [exact Logic.I | exact (MX IX)]|].
            destruct (negb p2); injection Q as <- <- <-; [destruct IX as [<-|[<-|IX]]; [exact Logic.I | exact Logic.I | exact (MX IX)]|].
            destruct IX as [<-|[<-|[<-|IX]]]; [|exact Logic.I|exact Logic.I|exact (MX IX)]. eexists. split; [reflexivity|]. intros y [<-|[<-|Y]]; [exact Logic.I | exact Logic.I | exact (MY y Y)].
          + cbn [negb] in Q. destruct (negb p2); injection Q as <- <- <-; [destruct IX as [<-|IX]; [exact Logic.I | exact (MX IX)]|].
            destruct IX as [<-|[<-|IX]]; [|exact Logic.I|exact (MX IX)]. eexists. split; [reflexivity|]. intros y [<-|Y]; [exact Logic.I | exact (MY y Y)].
        - injection Q as <- <- <-. destruct IX as [<-|IX]; [|exact (MX IX)]. eexists. split; [reflexivity | exact MY]. }
      destruct (if nofree m then [] else freed s) as [|[a b] rs].
      - destruct (_ =? _).
        + destruct mm as [base|]; [|injection Q as <- <- <-; destruct IX]. destruct (mmap_ok _ _ _); [|injection Q as <- <- <-; destruct IX].
          eapply GS; [|exact Q|exact IX]. intros y [<-|[]]. exact Logic.I.
        + eapply GS; [|exact Q|exact IX]. intros y [].
      - injection Q as <- <- <-. destruct IX as [<-|[]]. eexists. split; [reflexivity|]. intros y []. }
    destruct x; try exact Logic.I; try (destruct NN; fail).
    + exact P.
    + destruct NN as (e3 & -> & NG). pose proof (sv_h _ _ _ V') as N. cbn in N. apply NoDup_cons_iff in N. destruct N as [N _].
      assert (HH : held (e3 ++ L) = held L) by (clear - NG; induction e3 as [|y e3 IH]; [reflexivity|]; cbn; pose proof (NG y (or_introl eq_refl)) as Q; rewrite <- IH by (intros z Z; apply NG; right; exact Z); destruct y; try reflexivity; destruct Q).
      rewrite HH in N. exact N.
  - destruct r as [a b]. unfold stack_put in E. destruct (find _ _) as [g|] eqn:F; [|discriminate]. apply find_some in F. destruct F as [G GB]. apply Z.eqb_eq in GB.
    set (e0 := if norelease m then [] else if 0 <? (if nofree m then stacksz m else stacksz m - pagesz m) then [SRemap (if nofree m then a else a + pagesz m) (if nofree m then stacksz m else stacksz m - pagesz m)] else []) in *.
    assert (RM : forall y, In y e0 -> y = SRemap (if nofree m then a else a + pagesz m) (if nofree m then stacksz m else stacksz m - pagesz m)).
    { subst e0. intros y Y. destruct (norelease m); [destruct Y|]. destruct (0 <? _); [|destruct Y]. destruct Y as [<-|[]]. reflexivity. }
    assert (RX : forall y, In y e0 -> match y with SUnmap _ _ | SProt _ _ | SGet _ _ => False | SRemap p q => exists r, OPut (a, b) = OPut r /\ fst r <= p /\ p + q <= fst r + stacksz m | _ => True end).
    { intros y Y. rewrite (RM y Y). exists (a, b). cbn. pose proof (ft_page _ FT). split; [reflexivity|]. destruct (nofree m); lia. }
    assert (IX : In x e) by (rewrite EE; apply in_or_app; right; left; reflexivity). clear EE.
    assert (UM : forall n, e = SUnmap b n :: SPut a b :: e0 -> n = allocsz g -> x = SUnmap b n -> In (b, n) (mapped L) /\ forall y, In y (held (e ++ L)) -> fst y + stacksz m <= b \/ b + n <= fst y).
    { intros n Ee -> ->. split; [apply (sv_map _ _ _ V); exists g; split; [exact G | rewrite GB; reflexivity]|]. intros y Y.
      destruct (sv_slot _ _ _ V' y (or_introl Y)) as (h & j & HH & HB & J & A). pose proof (sv_gok _ _ _ V' h HH) as K. pose proof (gk_pos _ _ K). pose proof (slot_in h j K ltac:(lia)) as [S1 S2]. rewrite A.
      assert (MH : In (gbase h, allocsz h) (mapped (e ++ L))) by (apply (sv_map _ _ _ V'); eauto). rewrite Ee in MH. cbn [app mapped] in MH. apply filter_In in MH. destruct MH as [MH NB].
      assert (ME : mapped (e0 ++ L) = mapped L) by (subst e0; destruct (norelease m); [reflexivity|]; destruct (0 <? _); reflexivity). rewrite ME in MH.
      apply (sv_map _ _ _ V) in MH. destruct MH as (h0 & MH0 & Q). injection Q as Q1 Q2. cbn [fst] in NB. destruct (Z.eqb_spec (gbase h) b) as [|NE]; [discriminate|].
      pose proof gap_pos. destruct (sv_dis _ _ _ V g h0 G MH0 ltac:(congruence)); lia. }
    destruct (use g - 1 =? 0).
    + match type of E with context [match ?X with Some _ => _ | None => None end] => destruct X as [fr'|] end; [|discriminate]. injection E as _ Ee. pose proof (UM (allocsz g) (eq_sym Ee) eq_refl) as U. rewrite <- Ee in IX.
      destruct IX as [<-|[<-|IX]]; [exact (U eq_refl) | exact Logic.I|]. specialize (RX x IX). destruct x; auto; destruct RX.
    + injection E as _ Ee. rewrite <- Ee in IX. destruct IX as [<-|IX]; [exact Logic.I|]. specialize (RX x IX). destruct x; auto; destruct RX.
Qed.
End F.

(** The options: for a page size that is a power of two (at least 128, the group
    header is 88 bytes) and options that fit in memory, zero standing for the default,
    the stacks are at least as big and as far apart as asked for. *)
Definition opt (x d : Z) : Z := if x =? 0 then d else x.
Lemma align_ok : forall x k, 0 <= k -> 0 <= x -> x + 2 ^ k < M64 -> x <= align_size x (2 ^ k) <= x + 2 ^ k /\ 2 ^ k <= align_size x (2 ^ k).
Proof.
  intros x k K X B. assert (P : 0 < 2 ^ k) by (apply Z.pow_pos_nonneg; lia). unfold align_size. destruct (Z.ltb_spec x (2 ^ k)); [lia|].
  assert (E : Z.land x (2 ^ k - 1) = x mod 2 ^ k) by (rewrite <- Z.land_ones by exact K; f_equal; rewrite Z.ones_equiv; lia). rewrite E.
  pose proof (Z.mod_pos_bound x (2 ^ k) P). destruct (Z.eqb_spec (x mod 2 ^ k) 0); [lia|]. unfold w64. rewrite Z.mod_small by lia. lia.
Qed.
Theorem C39_options : forall k o, 7 <= k -> 0 <= o_stacksz o -> 0 <= o_defcap o -> 0 <= o_maxcap o -> 0 <= o_gapsz o ->
  let S := opt (o_stacksz o) 8388608 in let G := opt (o_gapsz o) 1048576 in let C := opt (o_maxcap o) 8192 in
  88 + G + 2 * 2 ^ k + (S + G + 2 * 2 ^ k) * C < M64 ->
  let m := mgr_init (2 ^ k) o in fits m /\ S <= stacksz m /\ gapsz m = G.
Proof.
  intros k o K OS OD OM OG S G C B m. assert (P : 0 < 2 ^ k) by (apply Z.pow_pos_nonneg; lia).
  assert (S0 : 0 < S) by (subst S; unfold opt; destruct (Z.eqb_spec (o_stacksz o) 0); lia). assert (G0 : 0 < G) by (subst G; unfold opt; destruct (Z.eqb_spec (o_gapsz o) 0); lia).
  assert (C0 : 0 < C) by (subst C; unfold opt; destruct (Z.eqb_spec (o_maxcap o) 0); lia).
  assert (SB : S + 2 ^ k < M64) by nia. assert (GB : G + 2 ^ k < M64) by nia. assert (HB : GROUPSZ + 2 ^ k < M64) by (unfold GROUPSZ; nia).
  pose proof (align_ok S k ltac:(lia) ltac:(lia) SB) as [[A1 A2] A3]. pose proof (align_ok G k ltac:(lia) ltac:(lia) GB) as [[A4 A5] A6]. pose proof (align_ok GROUPSZ k ltac:(lia) ltac:(unfold GROUPSZ; lia) HB) as [[A7 A8] A9].
  assert (GG : group_gap m = align_size G (2 ^ k)).
  { unfold group_gap, m, mgr_init. cbn [gapsz pagesz]. fold (opt (o_gapsz o) 1048576). fold G. destruct (Z.eqb_spec G 0); [lia | reflexivity]. }
  assert (ES : stacksz m = align_size S (2 ^ k)) by reflexivity. assert (EG : gapsz m = G) by reflexivity. assert (EC : maxcap m = C) by reflexivity. assert (EP : pagesz m = 2 ^ k) by reflexivity.
  split; [|split; [lia | exact EG]]. split; rewrite ?GG, ?ES, ?EG, ?EC, ?EP; try lia.
  - unfold m, mgr_init. cbn [defcap]. destruct (Z.eqb_spec (o_defcap o) 0); lia.
  - unfold GROUPSZ in *. nia.
Qed.
(** Without the bound the sizes wrap around and the stacks lie outside what was mapped:
    stacks of 2^62 bytes, four to a group. *)
Theorem C39_size_overflow_refuted : exists o s L x, let m := mgr_init 4096 o in shist m s L /\ In x (held L) /\
  forall y, In y (mapped L) -> ~ (fst y <= fst x /\ fst x + stacksz m <= fst y + snd y).
Proof.
  exists (mkso (2 ^ 62) 4 8 4096 false true true). do 3 eexists. cbn zeta. split; [|split].
  - eapply (sh_step _ _ _ (OGet (Some 65536) true true)); [constructor | exact I | vm_compute; reflexivity].
  - vm_compute. left. reflexivity.
  - vm_compute. intros y [<-|[]] [_ H]. exact (H eq_refl).
Qed.
(** Non-vacuity: the default options fit; a history with three stacks in two groups, one
    given back and handed out again, a group unmapped. *)
Definition defaults : smgr := mgr_init 4096 (mkso 0 2 0 0 true false false).
Example C39_example : fits defaults /\ exists s L, shist defaults s L /\
  held L = [(2101248, 1048576); (4296019968, 4294967296); (11538432, 1048576)] /\ mapped L = [(4294967296, 38801408); (1048576, 19927040)].
Proof.
  split; [apply (C39_options 12); vm_compute; congruence|].
  assert (H0 := sh_init defaults).
  pose proof (sh_step _ _ _ (OGet (Some 1048576) true true) _ _ H0 I eq_refl) as H1. vm_compute in H1.
  pose proof (sh_step _ _ _ (OGet None true true) _ _ H1 I eq_refl) as H2. vm_compute in H2.
  pose proof (sh_step _ _ _ (OGet (Some 4294967296) true true) _ _ H2 I eq_refl) as H3. vm_compute in H3.
  pose proof (sh_step _ _ _ (OPut (4294967296 + 4096 + 1048576, 4294967296)) _ _ H3 (or_introl eq_refl) eq_refl) as H4. vm_compute in H4.
  pose proof (sh_step _ _ _ (OGet (Some 4294967296) true true) _ _ H4 I eq_refl) as H5. vm_compute in H5.
  pose proof (sh_step _ _ _ (OPut (2101248, 1048576)) _ _ H5 (or_intror (or_intror (or_introl eq_refl))) eq_refl) as H6. vm_compute in H6.
  pose proof (sh_step _ _ _ (OGet None true true) _ _ H6 I eq_refl) as H9. vm_compute in H9. clear H6.
  do 2 eexists. split; [exact H9|]. vm_compute. auto.
Qed.
Print Assumptions C39_inside_mapped.
Print Assumptions C39_disjoint.
Print Assumptions C39_no_ub.
Print Assumptions C39_system_calls.
Print Assumptions C39_options.
Print Assumptions C39_size_overflow_refuted.
