(** C53: neco_serve (and neco_dial on unix paths). *)
From Coq Require Import ZArith List Bool Lia.
From Verif Require Import Addr IoLoops Serve.
Import ListNotations.
Open Scope Z_scope.

(** ** Specification *)
(** descriptors opened and closed by the calls; addresses looked up and lists freed *)
Definition opened (es : list sev) : list Z := flat_map (fun e => match e with SOpen fd => [fd] | _ => [] end) es.
Definition closed (es : list sev) : list Z := flat_map (fun e => match e with SClose fd => [fd] | _ => [] end) es.
Definition frees (es : list sev) : nat := length (flat_map (fun e => match e with SFree => [tt] | _ => [] end) es).
Definition lookups (es : list sev) : list (Z * list nat * list nat) := flat_map (fun e => match e with SLookup f h p => [(f, h, p)] | _ => [] end) es.
Definition binds (es : list sev) : list (Z * saddr) := flat_map (fun e => match e with SBind fd a => [(fd, a)] | _ => [] end) es.
Definition connects (es : list sev) : list (Z * saddr) := flat_map (fun e => match e with SConnect fd a => [(fd, a)] | _ => [] end) es.
(** [x] comes before [y] *)
Definition before (es : list sev) (x y : sev) : Prop := exists l1 l2 l3, es = l1 ++ x :: l2 ++ y :: l3.
(** What the kernel and the resolver may answer: descriptors are not negative, errors
    are. *)
Definition sane (k : kans) : Prop := (forall fd, k_sock k = Some fd -> 0 <= fd) /\ (forall e, k_look k = inl e -> e < 0).
(** the lookup was made and gave a list, which the caller must free *)
Definition has_list (k : kans) (es : list sev) : bool :=
  match lookups es, k_look k with _ :: _, inr (_ :: _) => true | _, _ => false end.

(** ** The claims *)
(** Success: the value is the one descriptor opened, it is not closed, and it was bound,
    then made listening, then non-blocking. Failure: a negative value, and every
    descriptor opened has been closed once. In both cases the looked-up list is freed once. *)
Theorem C53_result : forall k id n a r es, sane k -> serve k id n a = (r, es) ->
  (0 <= r -> opened es = [r] /\ closed es = [] /\ exists ad, binds es = [(r, ad)] /\ before es (SBind r ad) (SListen r) /\ before es (SListen r) (SNonblock r)) /\
  (r < 0 -> opened es = closed es) /\
  frees es = (if has_list k es then 1%nat else 0%nat).
Proof.
  intros k id n a r es [SK SL] X. unfold serve in X.
  assert (INV : forall e, e < 0 -> (e, []) = (r, es) -> (0 <= r -> opened es = [r] /\ closed es = [] /\ exists ad, binds es = [(r, ad)] /\ before es (SBind r ad) (SListen r) /\ before es (SListen r) (SNonblock r)) /\
    (r < 0 -> opened es = closed es) /\ frees es = (if has_list k es then 1%nat else 0%nat)).
  { intros e N Y. injection Y as <- <-. split; [lia|]. split; reflexivity. }
  assert (TCP : forall b fam, listen_tcp k b fam = (r, es) -> (0 <= r -> opened es = [r] /\ closed es = [] /\ exists ad, binds es = [(r, ad)] /\ before es (SBind r ad) (SListen r) /\ before es (SListen r) (SNonblock r)) /\
    (r < 0 -> opened es = closed es) /\ frees es = (if has_list k es then 1%nat else 0%nat)).
  { intros b fam Y. unfold listen_tcp, resolve in Y. destruct (parse_tcp_addr b) as [|h p|]; [apply (INV (NECO_INVAL)); [unfold NECO_INVAL; lia | exact Y]| |apply (INV (NECO_INVAL)); [unfold NECO_INVAL; lia | exact Y]].
    set (vh := match h with [] => _ | _ => _ end) in Y. clearbody vh.
    destruct (k_look k) as [e|l] eqn:KL.
    - injection Y as <- <-. specialize (SL e eq_refl). split; [lia|]. unfold has_list. rewrite KL. split; reflexivity.
    - destruct l as [|x l]; [injection Y as <- <-; split; [unfold NECO_GAIERROR; lia|]; unfold has_list; rewrite KL; split; reflexivity|].
      destruct (k_sock k) as [fd|] eqn:KS; [|injection Y as <- <-; split; [lia|]; unfold has_list; rewrite KL; split; reflexivity].
      specialize (SK fd eq_refl). unfold andthen in Y. destruct (k_reuse k), (k_bind k), (k_listen k), (k_nb k); cbn in Y; injection Y as <- <-; unfold has_list; rewrite KL; cbn; (split; [|split; [|reflexivity]]); intros; try lia; try reflexivity.
      split; [reflexivity|]. split; [reflexivity|]. exists (AInet x). split; [reflexivity|]. split.
      + exists [SLookup fam vh p; SOpen fd; SReuse fd], [SFree], [SNonblock fd]. reflexivity.
      + exists [SLookup fam vh p; SOpen fd; SReuse fd; SBind fd (AInet x); SFree], [], []. reflexivity. }
  destruct n as [n|]; [|apply (INV NECO_INVAL); [unfold NECO_INVAL; lia | exact X]].
  destruct a as [a|]; [|apply (INV NECO_INVAL); [unfold NECO_INVAL; lia | exact X]].
  destruct (id <=? 0); [apply (INV NECO_PERM); [unfold NECO_PERM; lia | exact X]|].
  destruct n; [exact (TCP _ _ X) | exact (TCP _ _ X) | exact (TCP _ _ X) | | apply (INV NECO_INVAL); [unfold NECO_INVAL; lia | exact X]].
  unfold listen_unix in X. destruct (k_sock k) as [fd|] eqn:KS; [|injection X as <- <-; split; [unfold NECO_ERROR; lia|]; split; reflexivity].
  specialize (SK fd eq_refl). destruct (k_bind k), (k_listen k), (k_nb k); cbn in X; injection X as <- <-; unfold NECO_ERROR; cbn; (split; [|split; [|reflexivity]]); intros; try lia; try reflexivity.
  split; [reflexivity|]. split; [reflexivity|]. exists (APath (sun_path a)). split; [reflexivity|]. split.
  - exists [SOpen fd], [], [SNonblock fd]. reflexivity.
  - exists [SOpen fd; SBind fd (APath (sun_path a))], [], []. reflexivity.
Qed.
(** A descriptor is returned exactly when every call it needs works: the resolver finds
    an address, and socket, bind, listen and the rest succeed. *)
Theorem C53_success : forall k id n a, sane k -> id > 0 ->
  (0 <= fst (serve k id (Some n) (Some a)) <->
   k_sock k <> None /\ k_bind k = true /\ k_listen k = true /\ k_nb k = true /\
   match n with
   | NUnix => True
   | NOther => False
   | _ => k_reuse k = true /\ (exists h p, parse_tcp_addr a = POk h p) /\ exists x l, k_look k = inr (x :: l)
   end).
Proof.
  intros k id n a [SK SL] ID. unfold serve. destruct (Z.leb_spec id 0) as [|_]; [lia|].
  assert (TCP : forall fam, 0 <= fst (listen_tcp k a fam) <-> k_sock k <> None /\ k_bind k = true /\ k_listen k = true /\ k_nb k = true /\ k_reuse k = true /\ (exists h p, parse_tcp_addr a = POk h p) /\ exists x l, k_look k = inr (x :: l)).
  { intros fam. unfold listen_tcp, resolve. destruct (parse_tcp_addr a) as [|h p|].
    - cbn. unfold NECO_INVAL. split; [lia|]. intros (_ & _ & _ & _ & _ & (h & p & H) & _). discriminate H.
    - destruct (k_look k) as [e|[|x l]] eqn:KL.
      + cbn. specialize (SL e eq_refl). split; [lia|]. intros (_ & _ & _ & _ & _ & _ & (x & l & H)). discriminate H.
      + cbn. unfold NECO_GAIERROR. split; [lia|]. intros (_ & _ & _ & _ & _ & _ & (x & l & H)). discriminate H.
      + destruct (k_sock k) as [fd|] eqn:KS; [|cbn; split; [lia|]; intros (H & _); congruence].
        specialize (SK fd eq_refl). unfold andthen. destruct (k_reuse k), (k_bind k), (k_listen k), (k_nb k); cbn; (split; [intros|intros (_ & A1 & A2 & A3 & A4 & _); try discriminate; try lia]); try lia.
        split; [discriminate|]. split; [reflexivity|]. split; [reflexivity|]. split; [reflexivity|]. split; [reflexivity|]. split; eauto.
    - cbn. unfold NECO_INVAL. split; [lia|]. intros (_ & _ & _ & _ & _ & (h & p & H) & _). discriminate H. }
  destruct n; [apply TCP | apply TCP | apply TCP | |].
  - unfold listen_unix. destruct (k_sock k) as [fd|] eqn:KS; [|cbn; unfold NECO_ERROR; split; [lia|]; intros (H & _); congruence].
    specialize (SK fd eq_refl). destruct (k_bind k), (k_listen k), (k_nb k); cbn; unfold NECO_ERROR; (split; [intros|intros (_ & A1 & A2 & A3 & _); try discriminate; try lia]); try lia.
    split; [discriminate|]. auto.
  - cbn. unfold NECO_INVAL. split; [lia | tauto].
Qed.
(** tcp: the host and port of the address string are looked up in the asked-for family
    (an empty host is the wildcard address), and the first address found is bound. *)
Theorem C53_tcp_address : forall k id n a h p, sane k -> id > 0 -> parse_tcp_addr a = POk h p ->
  forall fam, (n = NTcp /\ fam = 0 \/ n = NTcp4 /\ fam = AF_INET \/ n = NTcp6 /\ fam = AF_INET6) ->
  let es := snd (serve k id (Some n) (Some a)) in
  lookups es = [(fam, match h with [] => if fam =? AF_INET6 then zeros6 else zeros4 | _ => h end, p)] /\
  forall fd ad, In (fd, ad) (binds es) -> exists x l, k_look k = inr (x :: l) /\ ad = AInet x.
Proof.
  intros k id n a h p [SK SL] ID P fam N es.
  assert (E : es = snd (listen_tcp k a fam)).
  { unfold es, serve. destruct (Z.leb_spec id 0) as [|_]; [lia|]. destruct N as [[-> ->]|[[-> ->]|[-> ->]]]; reflexivity. }
  rewrite E. clear es E N. unfold listen_tcp, resolve. rewrite P.
  destruct (k_look k) as [e|[|x l]] eqn:KL; [split; [reflexivity | intros ? ? []] | split; [reflexivity | intros ? ? []]|].
  destruct (k_sock k) as [fd|]; [|split; [reflexivity | intros ? ? []]].
  unfold andthen. destruct (k_reuse k), (k_bind k), (k_listen k), (k_nb k); cbn -[zeros4 zeros6]; (split; [reflexivity|]); intros fd' ad I; try contradiction; destruct I as [I|[]]; injection I as <- <-; eauto.
Qed.
(** Wrong arguments and a caller outside any coroutine: the documented error and no
    system call. *)
Theorem C53_refused : forall k id n a,
  (n = None \/ a = None -> serve k id n a = (NECO_INVAL, [])) /\
  (forall n' a', n = Some n' -> a = Some a' -> id <= 0 -> serve k id n a = (NECO_PERM, [])) /\
  (forall a', n = Some NOther -> a = Some a' -> id > 0 -> serve k id n a = (NECO_INVAL, [])).
Proof.
  intros k id n a. split; [|split].
  - intros [-> | ->]; [reflexivity|]. destruct n; reflexivity.
  - intros n' a' -> -> L. unfold serve. destruct (Z.leb_spec id 0); [reflexivity | lia].
  - intros a' -> -> L. unfold serve. destruct (Z.leb_spec id 0); [lia | reflexivity].
Qed.
(** unix, a path that fits: the socket is bound to exactly this path, and a dial to the
    same string connects to the same path. Missing: longer paths, see
    [C53_unix_refuted]. *)
Theorem C53_unix_partial : forall k k' id a, id > 0 -> (length a < 108)%nat ->
  (forall fd ad, In (fd, ad) (binds (snd (serve k id (Some NUnix) (Some a)))) -> ad = APath a) /\
  (forall fd ad, In (fd, ad) (connects (snd (dial_unix k' a))) -> ad = APath a).
Proof.
  intros k k' id a ID L. assert (F : sun_path a = a) by (apply firstn_all2; unfold sun_path_size; lia). split; intros fd ad I.
  - unfold serve in I. destruct (Z.leb_spec id 0) as [|_]; [lia|]. unfold listen_unix in I. rewrite F in I.
    destruct (k_sock k); [|contradiction I]. destruct (k_bind k), (k_listen k), (k_nb k); cbn in I; destruct I as [I|[]]; injection I as _ <-; reflexivity.
  - unfold dial_unix in I. rewrite F in I. destruct (Nat.ltb _ _); [contradiction I|]. destruct (k_sock k'); [|contradiction I]. destruct (k_nb k'), (k_conn k'); cbn in I; try contradiction; destruct I as [I|[]]; injection I as _ <-; reflexivity.
Qed.
(** A longer path: neco_serve reports success, but the socket is bound to the first 107
    bytes; neco_dial refuses the same string with NECO_INVAL. So does every such path. *)
Theorem C53_unix_refuted : forall k id a, id > 0 -> (108 <= length a)%nat ->
  k_sock k <> None -> k_bind k = true -> k_listen k = true -> k_nb k = true -> sane k ->
  0 <= fst (serve k id (Some NUnix) (Some a)) /\
  (exists fd p, binds (snd (serve k id (Some NUnix) (Some a))) = [(fd, APath p)] /\ p <> a) /\
  dial_unix k a = (NECO_INVAL, []).
Proof.
  intros k id a ID L KS KB KL KN [SK _]. unfold serve. destruct (Z.leb_spec id 0) as [|_]; [lia|]. unfold listen_unix.
  destruct (k_sock k) as [fd|] eqn:K; [|congruence]. specialize (SK fd eq_refl). rewrite KB, KL, KN. cbn [negb fst snd].
  split; [exact SK|]. split.
  - exists fd, (sun_path a). split; [reflexivity|]. intros E. assert (length (sun_path a) = length a) by (rewrite E; reflexivity). unfold sun_path in H. rewrite firstn_length in H. unfold sun_path_size in H. lia.
  - unfold dial_unix. replace (Nat.ltb (sun_path_size - 1) (length a)) with true; [reflexivity|]. symmetry. apply Nat.ltb_lt. unfold sun_path_size. lia.
Qed.

(** tcp ":80" with a failing listen; unix success; a 200-byte path. *)
Definition k53 := {| k_look := inr [1; 2]; k_sock := Some 5; k_reuse := true; k_bind := true; k_listen := true; k_nb := true; k_conn := true |}.
Definition k53l := {| k_look := inr [1; 2]; k_sock := Some 5; k_reuse := true; k_bind := true; k_listen := false; k_nb := true; k_conn := true |}.
Example C53_example :
  serve k53l 1 (Some NTcp6) (Some [58; 56; 48]%nat) = (-1, [SLookup 10 zeros6 [56; 48]%nat; SOpen 5; SReuse 5; SBind 5 (AInet 1); SFree; SListen 5; SClose 5]) /\
  fst (serve k53 1 (Some NUnix) (Some [47; 97]%nat)) = 5 /\ sane k53 /\ sane k53l /\
  fst (serve k53 1 (Some NUnix) (Some (repeat 97%nat 200))) = 5.
Proof.
  split; [vm_compute; reflexivity|]. split; [reflexivity|].
  split; [split; [intros fd H; injection H as <-; lia | intros e H; discriminate H]|].
  split; [split; [intros fd H; injection H as <-; lia | intros e H; discriminate H]|]. reflexivity.
Qed.

Print Assumptions C53_result.
Print Assumptions C53_success.
Print Assumptions C53_tcp_address.
Print Assumptions C53_refused.
Print Assumptions C53_unix_partial.
Print Assumptions C53_unix_refuted.
