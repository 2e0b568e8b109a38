(** C87: theorems about the storage of the DHT. *)
From Verif Require Import DsModel.
From Coq Require Import List NArith ZArith Bool Lia ZifyN ZifyNat ZifyBool.
Import ListNotations.
Local Open Scope N_scope.

Lemma key_eqb_spec a b : reflect (a = b) (key_eqb a b).
Proof.
  destruct a as [n o|n g], b as [n' o'|n' g']; cbn; try (constructor; discriminate);
    destruct (N.eqb_spec n n'), (N.eqb_spec o o') || destruct (N.eqb_spec n n'), (N.eqb_spec g g');
    cbn; constructor; congruence.
Qed.
Lemma key_refl k : key_eqb k k = true. Proof. destruct (key_eqb_spec k k); congruence. Qed.
Lemma put_same k v c : put k v c k = v. Proof. unfold put. now rewrite key_refl. Qed.
Lemma put_other k x v c : x <> k -> put k v c x = c x.
Proof. intros H. unfold put. destruct (key_eqb_spec x k); congruence. Qed.

(** *** The specification *)
(** may this value be taken at this moment? *)
Definition timely (max_ttl now : N) (v : value) : Prop := now < v_exp v /\ v_exp v <= now + max_ttl.
Definition timely_b (max_ttl now : N) (v : value) : bool := (now <? v_exp v) && (v_exp v <=? now + max_ttl).
Lemma timely_b_spec m now v : timely_b m now v = true <-> timely m now v.
Proof. unfold timely_b, timely. lia. Qed.
(** the values of a key which a history offers and which are timely and signed *)
Definition offers verify max_ttl (k : key) (l : list op) : list value :=
  flat_map (fun o => match o with
                     | OInsert now _ v => if key_eqb (v_key v) k && timely_b max_ttl now v && signed verify v then [v] else []
                     | _ => [] end) l.
(** the newest of a list, the first of equally new ones *)
Definition newest (w : option value) (l : list value) : Prop :=
  match w with
  | None => l = []
  | Some w => exists a b, l = a ++ w :: b /\ Forall (fun x => v_exp x < v_exp w) a /\ Forall (fun x => v_exp x <= v_exp w) b
  end.
Definition peer_key (k : key) : bool := match k with KPeer _ _ => true | _ => false end.

Section Thms.
Context (verify : N -> key -> list N -> N -> N -> bool) (max_ttl : N).
Local Notation insert := (insert verify max_ttl).
Local Notation step := (step verify max_ttl).
Local Notation run := (run verify max_ttl).
Local Notation signed := (signed verify).
Local Notation offers := (offers verify max_ttl).

Lemma or_insert_cases k init rep s r s' : or_insert k init rep s = (r, s') ->
  (exists v, r = Done true /\ s' = Sto (put k (Some v) (s_cache s)) (s_mergers s) /\
     ((s_cache s k = None /\ v = init) \/ exists p, s_cache s k = Some p /\ rep p = Some v)) \/
  (r = Done false /\ s' = s /\ exists p, s_cache s k = Some p /\ rep p = None).
Proof.
  unfold or_insert. destruct (s_cache s k) as [p|] eqn:E.
  - destruct (rep p) as [v|] eqn:R; intros [= <- <-].
    + left. exists v. eauto 6.
    + right. eauto.
  - intros [= <- <-]. left. exists init. eauto 6.
Qed.

(** what an insertion does *)
Lemma insert_cases now src v s r s' : insert now src v s = (r, s') ->
  s' = s /\ r <> Done true \/
  timely max_ttl now v /\ r = Done true /\ exists w, s' = Sto (put (v_key v) (Some w) (s_cache s)) (s_mergers s) /\
    match v_key v with
    | KPeer _ _ => w = v /\ signed v = true /\ (forall p, s_cache s (v_key v) = Some p -> v_exp p < v_exp v)
    | KMerged _ g => exists m, s_mergers s g = Some m /\ m_check m src v = None /\
        (w = v \/ exists p, s_cache s (v_key v) = Some p /\ m_merge m src v p = Some w)
    end.
Proof.
  unfold DsModel.insert. destruct (N.leb_spec (v_exp v) now) as [A|A].
  { intros [= <- <-]. left. split; [auto|discriminate]. }
  destruct (N.ltb_spec max_ttl (v_exp v - now)) as [B|B].
  { intros [= <- <-]. left. split; [auto|discriminate]. }
  assert (T : timely max_ttl now v) by (unfold timely; lia).
  destruct (v_key v) as [n o|n g] eqn:K.
  - unfold insert_signed. destruct (signed v) eqn:S; cbn [negb].
    2:{ intros [= <- <-]. left. split; [auto|discriminate]. }
    intros H. rewrite K in H. destruct (or_insert_cases _ _ _ _ _ _ H) as [(w & -> & -> & C)|(-> & -> & _)].
    2:{ left. split; [auto|discriminate]. }
    right. split; [exact T|]. split; [auto|]. exists w. split; [auto|].
    destruct C as [[C ->]|(p & C & R)].
    + split; [auto|]. split; [auto|]. intros p P. congruence.
    + destruct (N.ltb_spec (v_exp p) (v_exp v)); [|discriminate]. injection R as <-.
      split; [auto|]. split; [auto|]. intros q Q. congruence.
  - unfold insert_merged. destruct (s_mergers s g) as [m|] eqn:M.
    2:{ intros [= <- <-]. left. split; [auto|discriminate]. }
    destruct (m_check m src v) as [e|] eqn:C0.
    { intros [= <- <-]. left. split; [auto|discriminate]. }
    intros H. rewrite K in H. destruct (or_insert_cases _ _ _ _ _ _ H) as [(w & -> & -> & C)|(-> & -> & _)].
    2:{ left. split; [auto|discriminate]. }
    right. split; [exact T|]. split; [auto|]. exists w. split; [auto|]. exists m. split; [auto|]. split; [auto|].
    destruct C as [[C ->]|(p & C & R)]; [auto|]. destruct (v_key p); [injection R as ->; auto|].
    right. eauto.
Qed.

(** An insertion which does not say "fresh" changes nothing; one which does changes only the slot
    of the key of the value. *)
Theorem insert_frame now src v s r s' : insert now src v s = (r, s') ->
  (r <> Done true -> s' = s) /\ (forall k, k <> v_key v -> s_cache s' k = s_cache s k).
Proof.
  intros H. destruct (insert_cases _ _ _ _ _ _ H) as [[-> A]|(_ & -> & w & -> & _)]; split; auto.
  - intros N. now destruct N.
  - intros k N. cbn. now apply put_other.
Qed.

(** The answer to the insertion of a peer value. *)
Theorem peer_insert_answer now src v s : peer_key (v_key v) = true ->
  fst (insert now src v s) =
    if v_exp v <=? now then Err ValueExpired
    else if now + max_ttl <? v_exp v then Err UnsupportedTtl
    else if negb (signed v) then Err InvalidSignature
    else Done (match s_cache s (v_key v) with Some p => v_exp p <? v_exp v | None => true end).
Proof.
  intros P. unfold DsModel.insert. destruct (N.leb_spec (v_exp v) now); [reflexivity|].
  replace (max_ttl <? v_exp v - now) with (now + max_ttl <? v_exp v) by lia.
  destruct (now + max_ttl <? v_exp v); [reflexivity|]. destruct (v_key v) as [n o|] eqn:K; [|discriminate].
  unfold insert_signed. destruct (signed v); [|reflexivity]. cbn [negb]. unfold or_insert. rewrite K.
  destruct (s_cache s (KPeer n o)) as [p|]; [|reflexivity]. now destruct (v_exp p <? v_exp v).
Qed.

(** After an insertion of a peer value which is no error, a value of the key at least as new is
    served at once; if the answer is "fresh", this very value. *)
Theorem served_after_insert now src v s b s' : peer_key (v_key v) = true -> insert now src v s = (Done b, s') ->
  exists w, get now (v_key v) s' = Some w /\ v_exp v <= v_exp w /\ (b = true -> w = v).
Proof.
  intros P H. pose proof (peer_insert_answer now src v s P) as A. rewrite H in A. cbn in A.
  destruct (N.leb_spec (v_exp v) now) as [|L]; [discriminate|]. destruct (_ <? _); [discriminate|].
  destruct (negb _); [discriminate|]. injection A as A.
  destruct (insert_cases _ _ _ _ _ _ H) as [[-> B]|(_ & E & w & -> & B)].
  - assert (b = false) as -> by (destruct b; congruence).
    destruct (s_cache s (v_key v)) as [p|] eqn:C; [|discriminate].
    exists p. unfold get. rewrite C. destruct (N.ltb_spec now (v_exp p)); [|lia]. split; [auto|]. split; [lia|discriminate].
  - destruct (v_key v) as [n o|] eqn:K; [|discriminate]. destruct B as (-> & _). exists v.
    unfold get. cbn [s_cache]. rewrite put_same. destruct (N.ltb_spec now (v_exp v)); [|lia]. split; [auto|]. split; [lia|auto].
Qed.

(** *** The whole history *)
Lemma run_snoc l o s : run (l ++ [o]) s = step (run l s) o.
Proof. unfold DsModel.run. now rewrite fold_left_app. Qed.

(** Whatever a peer key serves was inserted by somebody under this key, with the signature of the
    peer, and not later than [max_ttl] before its end. *)
Theorem peer_origin l n o w : s_cache (run l fresh) (KPeer n o) = Some w ->
  v_key w = KPeer n o /\ verify o (v_key w) (v_data w) (v_exp w) (v_sig w) = true /\
  exists now src, In (OInsert now src w) l /\ timely max_ttl now w.
Proof.
  revert w. induction l as [|a l IH] using rev_ind; intros w; [discriminate|]. rewrite run_snoc. intros H.
  assert (R : s_cache (run l fresh) (KPeer n o) = Some w -> v_key w = KPeer n o /\ verify o (v_key w) (v_data w) (v_exp w) (v_sig w) = true /\
     exists now src, In (OInsert now src w) (l ++ [a]) /\ timely max_ttl now w).
  { intros Q. destruct (IH w Q) as (A & B & now & src & C & D). split; [auto|]. split; [auto|]. exists now, src.
    split; [apply in_or_app; auto|auto]. }
  destruct a as [now src v|g m|k]; cbn [DsModel.step] in H.
  - destruct (insert now src v (run l fresh)) as [r s'] eqn:E. cbn [snd] in H.
    destruct (insert_cases _ _ _ _ _ _ E) as [[-> _]|(T & _ & x & -> & B)]; [auto|].
    cbn [s_cache] in H. unfold put in H. destruct (key_eqb_spec (KPeer n o) (v_key v)) as [K|K]; [|auto].
    injection H as ->. rewrite <- K in B. destruct B as (-> & B & _). unfold DsModel.signed in B.
    rewrite <- K in *. split; [auto|]. split; [auto|]. exists now, src. split; [apply in_or_app; right; left; reflexivity|auto].
  - auto.
  - cbn [s_cache] in H. unfold put in H. destruct (key_eqb (KPeer n o) k); [discriminate|auto].
Qed.

(** Whatever is served is not expired, and a peer value is served for less than [max_ttl] after its
    insertion. *)
Theorem served_alive l now n o w : get now (KPeer n o) (run l fresh) = Some w ->
  now < v_exp w /\ v_key w = KPeer n o /\ signed w = true /\
  exists t src, In (OInsert t src w) l /\ t < v_exp w /\ now < t + max_ttl.
Proof.
  unfold get. destruct (s_cache _ _) as [x|] eqn:E; [|discriminate]. destruct (N.ltb_spec now (v_exp x)); [|discriminate].
  intros [= ->]. destruct (peer_origin _ _ _ _ E) as (A & B & t & src & C & D & F).
  split; [auto|]. split; [auto|]. split; [unfold DsModel.signed; rewrite A in *; auto|].
  exists t, src. split; [auto|]. lia.
Qed.

Lemma offers_snoc k l o : offers k (l ++ [o]) = offers k l ++ offers k [o].
Proof. unfold DsThms.offers. now rewrite flat_map_app. Qed.

(** Between two losses of a peer key its slot holds exactly the newest of the timely and signed
    values which were offered, the first of equally new ones - whoever offered them. *)
Theorem peer_slot l s k : peer_key k = true -> s_cache s k = None -> ~ In (OEvict k) l ->
  newest (s_cache (run l s) k) (offers k l).
Proof.
  intros P F. induction l as [|a l IH] using rev_ind; intros NE; [cbn; now rewrite F|].
  assert (NE' : ~ In (OEvict k) l) by (intros H; apply NE, in_or_app; auto). specialize (IH NE').
  rewrite run_snoc, offers_snoc. destruct a as [now src v|g m|x]; cbn [DsModel.step].
  - unfold DsThms.offers at 2. cbn [flat_map]. rewrite app_nil_r.
    destruct (insert now src v (run l s)) as [r s'] eqn:E. cbn [snd].
    destruct (key_eqb_spec (v_key v) k) as [K|K]; cbn [andb].
    2:{ rewrite app_nil_r. rewrite (proj2 (insert_frame _ _ _ _ _ _ E) k) by congruence. exact IH. }
    pose proof (peer_insert_answer now src v (run l s)) as A. rewrite K, E in A. specialize (A P). cbn [fst] in A.
    destruct (N.leb_spec (v_exp v) now) as [L|L].
    { assert (timely_b max_ttl now v = false) as -> by (unfold timely_b; lia). cbn. rewrite app_nil_r.
      rewrite (proj1 (insert_frame _ _ _ _ _ _ E)) by congruence. exact IH. }
    destruct (N.ltb_spec (now + max_ttl) (v_exp v)) as [M|M].
    { assert (timely_b max_ttl now v = false) as -> by (unfold timely_b; lia). cbn. rewrite app_nil_r.
      rewrite (proj1 (insert_frame _ _ _ _ _ _ E)) by congruence. exact IH. }
    assert (timely_b max_ttl now v = true) as -> by (unfold timely_b; lia). cbn [andb].
    destruct (signed v) eqn:SG; cbn [negb] in A.
    2:{ rewrite app_nil_r, (proj1 (insert_frame _ _ _ _ _ _ E)) by congruence. exact IH. }
    destruct (insert_cases _ _ _ _ _ _ E) as [[-> B]|(_ & B & w & -> & C)].
    + destruct (s_cache (run l s) k) as [p|]; [|congruence]. destruct (N.ltb_spec (v_exp p) (v_exp v)); [congruence|].
      destruct IH as (a & b & E1 & E2 & E3). exists a, (b ++ [v]). rewrite E1, <- app_assoc. split; [reflexivity|].
      split; [auto|]. apply Forall_app. split; auto.
    + cbn [s_cache]. rewrite K, put_same. rewrite K in C. destruct k as [n o|]; [|discriminate]. destruct C as (-> & _ & C).
      exists (offers (KPeer n o) l), []. split; [reflexivity|]. split; [|constructor].
      destruct (s_cache (run l s) (KPeer n o)) as [p|].
      * destruct IH as (a & b & E1 & E2 & E3). specialize (C _ eq_refl). rewrite E1. apply Forall_app. split.
        -- eapply Forall_impl; [|exact E2]. cbn. intros y Y. lia.
        -- constructor; [auto|]. eapply Forall_impl; [|exact E3]. cbn. intros y Y. lia.
      * cbn in IH. rewrite IH. constructor.
  - cbn. rewrite app_nil_r. exact IH.
  - cbn. rewrite app_nil_r. rewrite put_other; [exact IH|]. intros ->. apply NE, in_or_app. right. left. reflexivity.
Qed.

(** Two nodes which were offered the same values of a peer key - in any order, any number of times,
    by anybody, at any timely moment - hold the same one, if no two different ones end in the same
    second. *)
Theorem converge l1 l2 s1 s2 k : peer_key k = true -> s_cache s1 k = None -> s_cache s2 k = None ->
  ~ In (OEvict k) l1 -> ~ In (OEvict k) l2 ->
  (forall v, In v (offers k l1) <-> In v (offers k l2)) ->
  (forall v w, In v (offers k l1) -> In w (offers k l1) -> v_exp v = v_exp w -> v = w) ->
  s_cache (run l1 s1) k = s_cache (run l2 s2) k.
Proof.
  intros P F1 F2 N1 N2 EQ D. pose proof (peer_slot l1 s1 k P F1 N1) as A. pose proof (peer_slot l2 s2 k P F2 N2) as B.
  assert (TOP : forall w l, newest (Some w) l -> In w l /\ forall x, In x l -> v_exp x <= v_exp w).
  { intros w l (a & b & -> & U & V). split; [apply in_or_app; right; now left|]. intros x X.
    rewrite Forall_forall in U, V. apply in_app_or in X. destruct X as [X|[X|X]].
    - specialize (U x X). lia.
    - subst x. lia.
    - auto. }
  destruct (s_cache (run l1 s1) k) as [w1|], (s_cache (run l2 s2) k) as [w2|]; auto.
  - destruct (TOP _ _ A) as [A1 A2], (TOP _ _ B) as [B1 B2]. f_equal. apply D; auto.
    + now apply EQ.
    + apply EQ in A1. apply EQ in B1. specialize (A2 _ B1). specialize (B2 _ A1). lia.
  - destruct (TOP _ _ A) as [A1 _]. cbn in B. apply EQ in A1. rewrite B in A1. destruct A1.
  - destruct (TOP _ _ B) as [B1 _]. cbn in A. apply EQ in B1. rewrite A in B1. destruct B1.
Qed.

(** *** Group values *)
(** Without a merger nothing of the group is stored, and this is no error. *)
Theorem no_merger now src v s n g : v_key v = KMerged n g -> s_mergers s g = None -> timely max_ttl now v ->
  insert now src v s = (Done false, s).
Proof.
  intros K M [A B]. unfold DsModel.insert. destruct (N.leb_spec (v_exp v) now); [lia|].
  destruct (N.ltb_spec max_ttl (v_exp v - now)); [lia|]. rewrite K. unfold insert_merged. now rewrite M.
Qed.
Definition only_public (l : list op) : Prop := forall g m, In (OMerger g (Some m)) l -> m = public_merger.
Lemma mergers_public l g m : only_public l -> s_mergers (run l fresh) g = Some m -> m = public_merger.
Proof.
  induction l as [|a l IH] using rev_ind; intros O H; [discriminate|]. rewrite run_snoc in H.
  assert (O' : only_public l) by (intros x y Q; apply (O x), in_or_app; auto).
  destruct a as [now src v|x y|k]; cbn [DsModel.step] in H.
  - destruct (insert now src v (run l fresh)) as [r s'] eqn:E. cbn [snd] in H.
    destruct (insert_cases _ _ _ _ _ _ E) as [[-> _]|(_ & _ & w & -> & _)]; auto.
  - cbn [s_mergers] in H. unfold put_merger in H. destruct (g =? x); [|auto]. subst y. apply (O x), in_or_app. right. now left.
  - auto.
Qed.
(** With the merger of the public overlays, whatever a group key serves was stored by the node
    itself; what other nodes send is refused and changes nothing. *)
Theorem group_origin l n g w : only_public l -> s_cache (run l fresh) (KMerged n g) = Some w ->
  v_key w = KMerged n g /\ exists now, In (OInsert now Local w) l /\ timely max_ttl now w.
Proof.
  revert w. induction l as [|a l IH] using rev_ind; intros w O; [discriminate|]. rewrite run_snoc. intros H.
  assert (O' : only_public l) by (intros x y Q; apply (O x), in_or_app; auto).
  assert (R : s_cache (run l fresh) (KMerged n g) = Some w -> v_key w = KMerged n g /\ exists now, In (OInsert now Local w) (l ++ [a]) /\ timely max_ttl now w).
  { intros Q. destruct (IH w O' Q) as (A & now & B & C). split; [auto|]. exists now. split; [apply in_or_app; auto|auto]. }
  destruct a as [now src v|x m|k]; cbn [DsModel.step] in H.
  - destruct (insert now src v (run l fresh)) as [r s'] eqn:E. cbn [snd] in H.
    destruct (insert_cases _ _ _ _ _ _ E) as [[-> _]|(T & _ & x & -> & B)]; [auto|].
    cbn [s_cache] in H. unfold put in H. destruct (key_eqb_spec (KMerged n g) (v_key v)) as [K|K]; [|auto].
    injection H as ->. rewrite <- K in B. destruct B as (m & M & C & D).
    rewrite (mergers_public _ _ _ O' M) in *. destruct src; [|discriminate].
    assert (w = v) as -> by (destruct D as [D|(p & _ & D)]; [auto|cbn in D; congruence]).
    split; [auto|]. exists now. split; [apply in_or_app; right; now left|auto].
  - auto.
  - cbn [s_cache] in H. unfold put in H. destruct (key_eqb (KMerged n g) k); [discriminate|auto].
Qed.
Theorem remote_refused now v s n g : v_key v = KMerged n g -> s_mergers s g = Some public_merger -> timely max_ttl now v ->
  insert now Remote v s = (Err InvalidSource, s).
Proof.
  intros K M [A B]. unfold DsModel.insert. destruct (N.leb_spec (v_exp v) now); [lia|].
  destruct (N.ltb_spec max_ttl (v_exp v - now)); [lia|]. rewrite K. unfold insert_merged. now rewrite M.
Qed.
(** The node's own group value replaces the previous one, whatever their ends. *)
Theorem local_replaces now v s n g : v_key v = KMerged n g -> s_mergers s g = Some public_merger -> timely max_ttl now v ->
  exists s', insert now Local v s = (Done true, s') /\ get now (KMerged n g) s' = Some v.
Proof.
  intros K M [A B]. unfold DsModel.insert. destruct (N.leb_spec (v_exp v) now); [lia|].
  destruct (N.ltb_spec max_ttl (v_exp v - now)); [lia|]. rewrite K. unfold insert_merged. rewrite M. cbn [m_check public_merger m_merge].
  unfold or_insert. rewrite K. destruct (s_cache s (KMerged n g)) as [p|].
  - assert (E : match v_key p with KPeer _ _ => Some v | KMerged _ _ => Some v end = Some v) by now destruct (v_key p).
    rewrite E. eexists. split; [reflexivity|]. unfold get. cbn [s_cache]. rewrite put_same.
    destruct (N.ltb_spec now (v_exp v)); [auto|lia].
  - eexists. split; [reflexivity|]. unfold get. cbn [s_cache]. rewrite put_same.
    destruct (N.ltb_spec now (v_exp v)); [auto|lia].
Qed.
(** Whatever the mergers: if they keep the key, a key serves only values of its own. *)
Definition key_kept (l : list op) : Prop :=
  forall g m, In (OMerger g (Some m)) l -> forall src v p w, v_key p = v_key v -> m_merge m src v p = Some w -> v_key w = v_key v.
Lemma mergers_kept l g m : key_kept l -> s_mergers (run l fresh) g = Some m ->
  forall src v p w, v_key p = v_key v -> m_merge m src v p = Some w -> v_key w = v_key v.
Proof.
  induction l as [|a l IH] using rev_ind; intros O H; [discriminate|]. rewrite run_snoc in H.
  assert (O' : key_kept l) by (intros x y Q; apply (O x), in_or_app; auto).
  destruct a as [now src v|x y|k]; cbn [DsModel.step] in H.
  - destruct (insert now src v (run l fresh)) as [r s'] eqn:E. cbn [snd] in H.
    destruct (insert_cases _ _ _ _ _ _ E) as [[-> _]|(_ & _ & w & -> & _)]; exact (IH O' H).
  - cbn [s_mergers] in H. unfold put_merger in H. destruct (g =? x); [|exact (IH O' H)]. subst y. apply (O x), in_or_app. right. now left.
  - exact (IH O' H).
Qed.
Theorem own_key l k w : key_kept l -> s_cache (run l fresh) k = Some w -> v_key w = k.
Proof.
  revert k w. induction l as [|a l IH] using rev_ind; intros k w O; [discriminate|]. rewrite run_snoc. intros H.
  assert (O' : key_kept l) by (intros x y Q; apply (O x), in_or_app; auto).
  destruct a as [now src v|x m|y]; cbn [DsModel.step] in H.
  - destruct (insert now src v (run l fresh)) as [r s'] eqn:E. cbn [snd] in H.
    destruct (insert_cases _ _ _ _ _ _ E) as [[-> _]|(T & _ & x & -> & B)]; [auto|].
    cbn [s_cache] in H. unfold put in H. destruct (key_eqb_spec k (v_key v)) as [K|K]; [|auto].
    injection H as ->. destruct (v_key v) as [n o|n g] eqn:KV.
    + destruct B as (-> & _). congruence.
    + destruct B as (m & M & _ & [->|(p & P & Q)]); [congruence|].
      pose proof (mergers_kept l g m O' M src v p w) as Z. rewrite KV in Z.
      rewrite K. apply Z; auto.
  - auto.
  - cbn [s_cache] in H. unfold put in H. destruct (key_eqb k y); [discriminate|eauto].
Qed.

(** *** Between nodes *)
(** What a storage serves to a search is what the asking node takes, unless the clock of the asking
    one is past the end of the value. *)
Theorem found_is_taken l there here k w : key_kept l -> get there k (run l fresh) = Some w ->
  asked verify there here k (run l fresh) = if here <=? v_exp w then Some w else None.
Proof.
  intros O G. unfold asked. rewrite G. unfold get in G. destruct (s_cache _ k) as [x|] eqn:E; [|discriminate].
  destruct (there <? v_exp x); [|discriminate]. injection G as ->. unfold verify_ext.
  rewrite (own_key _ _ _ O E), key_refl. destruct (here <=? v_exp w); [|reflexivity]. cbn [andb].
  assert (SG : signed w = true).
  { pose proof (own_key _ _ _ O E) as K. destruct k as [n o|n g].
    - destruct (peer_origin _ _ _ _ E) as (_ & V & _). unfold DsModel.signed. rewrite K in *. auto.
    - unfold DsModel.signed. now rewrite K. }
  now rewrite SG.
Qed.
(** A value published at [t] for the longest time allowed (the default of the publishing call) is
    timely on another node exactly if the clock of that node is not behind [t] - and not a whole
    [max_ttl] ahead: a node whose clock is a second late refuses it. *)
Theorem default_ttl t now v : v_exp v = t + max_ttl -> (timely max_ttl now v <-> t <= now /\ now < t + max_ttl).
Proof. unfold timely. lia. Qed.
Theorem late_clock_refuses t now src v s : v_exp v = t + max_ttl -> now < t -> insert now src v s = (Err UnsupportedTtl, s).
Proof.
  intros E L. unfold DsModel.insert. destruct (N.leb_spec (v_exp v) now); [lia|].
  destruct (N.ltb_spec max_ttl (v_exp v - now)); [auto|lia].
Qed.
(** A new value which does not end later than the present one is not taken: publishing twice within
    a second, or anew for a shorter time, changes nothing, and this is no error. *)
Theorem not_later_is_lost now src v p s : peer_key (v_key v) = true -> timely max_ttl now v -> signed v = true ->
  s_cache s (v_key v) = Some p -> v_exp v <= v_exp p -> insert now src v s = (Done false, s).
Proof.
  intros P [T1 T2] SG C L. pose proof (peer_insert_answer now src v s P) as A. rewrite SG, C in A. cbn [negb] in A.
  destruct (N.leb_spec (v_exp v) now); [lia|]. destruct (N.ltb_spec (now + max_ttl) (v_exp v)); [lia|].
  destruct (N.ltb_spec (v_exp p) (v_exp v)); [lia|].
  destruct (insert now src v s) as [r s'] eqn:E. cbn in A. subst r.
  rewrite (proj1 (insert_frame _ _ _ _ _ _ E)) by congruence. reflexivity.
Qed.
End Thms.

(** *** Cases *)
(** peer 7 signs with the sum of the data; it publishes twice, a stranger forges, a peer sends a
    group value, the node stores its own *)
Definition toy (o : N) (_ : key) (d : list N) (e s : N) : bool := s =? o + e + fold_right N.add 0 d.
Definition p7 : key := KPeer 1 7.
Definition g5 : key := KMerged 0 5.
Definition hist : list op :=
  [OMerger 5 (Some public_merger);
   OInsert 100 Remote (Val p7 [1] 150 158);
   OInsert 101 Remote (Val p7 [9] 190 0);
   OInsert 102 Remote (Val p7 [2] 160 169);
   OInsert 103 Remote (Val p7 [3] 155 165);
   OInsert 104 Remote (Val g5 [4] 150 0);
   OInsert 105 Local (Val g5 [5] 150 0);
   OInsert 106 Local (Val g5 [6] 140 0);
   OInsert 107 Local (Val (KMerged 0 6) [6] 140 0)].
Example hist_case :
  get 110 p7 (run toy 60 hist fresh) = Some (Val p7 [2] 160 169) /\ get 160 p7 (run toy 60 hist fresh) = None /\
  get 110 g5 (run toy 60 hist fresh) = Some (Val g5 [6] 140 0) /\ get 110 (KMerged 0 6) (run toy 60 hist fresh) = None /\
  offers toy 60 p7 hist = [Val p7 [1] 150 158; Val p7 [2] 160 169; Val p7 [3] 155 165] /\
  ~ In (OEvict p7) hist /\ only_public hist /\ key_kept hist.
Proof.
  do 5 (split; [vm_compute; reflexivity|]). split.
  { cbn. intros H. repeat (destruct H as [H|H]; [discriminate|]). exact H. }
  assert (O : only_public hist).
  { intros g m H. cbn in H. destruct H as [H|H]; [congruence|]. repeat (destruct H as [H|H]; [discriminate|]). destruct H. }
  split; [exact O|]. intros g m H src v p w K M. rewrite (O g m H) in M. cbn in M. destruct src; [|discriminate]. congruence.
Qed.
(** the default time to live, and a node one second late *)
Example late_case : fst (insert toy 60 99 Remote (Val p7 [1] 160 168) fresh) = Err UnsupportedTtl /\
  fst (insert toy 60 100 Remote (Val p7 [1] 160 168) fresh) = Done true /\
  asked toy 159 160 p7 (run toy 60 [OInsert 100 Remote (Val p7 [1] 160 168)] fresh) = Some (Val p7 [1] 160 168) /\
  asked toy 159 161 p7 (run toy 60 [OInsert 100 Remote (Val p7 [1] 160 168)] fresh) = None.
Proof. repeat split; vm_compute; reflexivity. Qed.
