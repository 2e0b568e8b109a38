(** Basic invariants of the validator session machine: shapes of slot maps, validity of stored signatures,
    thread-local facts, and their preservation by every step. *)
From Coq Require Import NArith Lia List Bool ZArith ZifyN ZifyBool.
From Verif Require Import AMap StatsSpec StatsProofs ValModel.
Import ListNotations.
Open Scope N_scope.

(** weight of a validator other than the node itself *)
Definition wt (c : vcfg) (p : N) : N := match aget N.eqb p (vc_vals c) with Some w => w | None => 0 end.
(** weight of any validator *)
Definition wta (c : vcfg) (p : N) : N := if p =? vc_own c then vc_ownw c else wt c p.
(** sum of the weights of the filled slots *)
Definition fsum (c : vcfg) (m : vslots) : N :=
  lsum (fun e => match snd e with Some _ => wt c (fst e) | None => 0 end) m.
Definition vkeys (c : vcfg) : list N := akeys (vc_vals c).
Definition vall (c : vcfg) : list N := vc_own c :: vkeys c.

Record cfg_ok (c : vcfg) : Prop := {
  ck_nd : NoDup (vall c);
  ck_w : lsum (wta c) (vall c) < u64_mod
}.

Definition slots_valid (c : vcfg) (b : vblock) (m : vslots) : Prop :=
  forall p sg, aget N.eqb p m = Some (Some sg) -> vc_verify c p (vdata b) sg = true.

Definition get_th (s : vst) t := aget N.eqb t (vs_ths s).
Definition get_obj (s : vst) o := aget N.eqb o (vs_objs s).

Record obj_ok (c : vcfg) (s : vst) (o : N) (x : vobj) : Prop := {
  ok_keys : akeys (vo_slots x) = vkeys c;
  ok_valid : slots_valid c (vo_blk x) (vo_slots x);
  ok_own : vo_own x = vc_sign c (vdata (vo_blk x));
  ok_seq : vb_seqno (vo_blk x) <= u32_top;
  ok_canc : vo_cancelled x = true -> vb_seqno (vo_blk x) <= vs_until s;
  ok_live : vs_until s < vb_seqno (vo_blk x) -> aget N.eqb (vb_seqno (vo_blk x)) (vs_blocks s) = Some o;
  ok_vd : vo_validated x = true -> vc_thr c <= vc_ownw c + fsum c (vo_slots x)
}.

(** object [o] exists and is for block [b] *)
Definition has_obj (s : vst) (o : N) (b : vblock) : Prop := exists x, get_obj s o = Some x /\ vo_blk x = b.
Definition has_seq (s : vst) (o q : N) : Prop := exists x, get_obj s o = Some x /\ vb_seqno (vo_blk x) = q.
Definition slot_is (s : vst) (o p sg : N) : Prop :=
  exists x, get_obj s o = Some x /\ aget N.eqb p (vo_slots x) = Some (Some sg).
Definition kont_ok (s : vst) (k : akont) (o : N) : Prop :=
  match k with KX q => has_seq s o q | KT => exists x, get_obj s o = Some x end.

(** what a finished or running thread knows *)
Definition th_ok (c : vcfg) (s : vst) (th : vth) : Prop :=
  match th with
  | VBegin b | VMin b | VSlotLoad b | VSlots b _ _ | VPeek b => vb_seqno b <= u32_top
  | VBuild b ci todo slots w =>
      vb_seqno b <= u32_top /\ akeys slots ++ todo = vkeys c /\ slots_valid c b slots /\ w = vc_ownw c + fsum c slots /\
      exists m, aget N.eqb ci (vs_cobjs s) = Some m
  | VInsert b ci slots w =>
      vb_seqno b <= u32_top /\ akeys slots = vkeys c /\ slots_valid c b slots /\ w = vc_ownw c + fsum c slots
  | VCheck1 b o _ | VCheck2 b o _ | VUncache b o _ => has_obj s o b
  | VFail1 b o => has_obj s o b /\ vb_seqno b <= vs_until s
  | VFail2 b => vb_seqno b <= vs_until s
  | VScan b o ci todo res total pend =>
      has_obj s o b /\ (forall p, In p todo -> In p (vkeys c)) /\ Permutation.Permutation (akeys res ++ map snd pend ++ todo) (vall c) /\
      total = lsum (wta c) (akeys res) /\
      aget N.eqb (vc_own c) res = Some (vc_sign c (vdata b)) /\
      (forall p sg, aget N.eqb p res = Some sg -> p <> vc_own c -> vc_verify c p (vdata b) sg = true)
  | VSpawn b o ci p todo res total pend =>
      has_obj s o b /\ (forall p', In p' (p :: todo) -> In p' (vkeys c)) /\ Permutation.Permutation (akeys res ++ map snd pend ++ p :: todo) (vall c) /\
      total = lsum (wta c) (akeys res) /\
      aget N.eqb (vc_own c) res = Some (vc_sign c (vdata b)) /\
      (forall p sg, aget N.eqb p res = Some sg -> p <> vc_own c -> vc_verify c p (vdata b) sg = true)
  | VWait b o res total pend =>
      has_obj s o b /\ Permutation.Permutation (akeys res ++ map snd pend) (vall c) /\
      total = lsum (wta c) (akeys res) /\
      aget N.eqb (vc_own c) res = Some (vc_sign c (vdata b)) /\
      (forall p sg, aget N.eqb p res = Some sg -> p <> vc_own c -> vc_verify c p (vdata b) sg = true)
  | VRet b (VComplete res total) =>
      NoDup (akeys res) /\ incl (akeys res) (vall c) /\ vc_thr c <= total /\
      total = lsum (wta c) (akeys res) /\
      aget N.eqb (vc_own c) res = Some (vc_sign c (vdata b)) /\
      (forall p sg, aget N.eqb p res = Some sg -> p <> vc_own c -> vc_verify c p (vdata b) sg = true)
  | VRet b VErrNoMore => lsum (wta c) (vall c) < vc_thr c
  | VRet b _ => True
  | TStart o p _ | TWait o p | TReload o p => (exists x, get_obj s o = Some x) /\ In p (vkeys c)
  | TRet o p sg => slot_is s o p sg /\ In p (vkeys c)
  | ALoad k o p sg => kont_ok s k o /\ In p (vkeys c)
  | ACas k o p sg => kont_ok s k o /\ In p (vkeys c) /\ exists x, get_obj s o = Some x /\ vc_verify c p (vdata (vo_blk x)) sg = true
  | AAdd k o p sg => kont_ok s k o /\ In p (vkeys c) /\ slot_is s o p sg
  | AFlag k o p sg can => kont_ok s k o /\ In p (vkeys c) /\ slot_is s o p sg /\
      (can = true -> exists x, get_obj s o = Some x /\ vc_thr c <= vc_ownw c + fsum c (vo_slots x))
  | XBegin _ _ _ | XBlock _ _ _ | XPeekC _ _ _ => True
  | XFlag p q sg o => has_seq s o q /\ In p (vkeys c)
  | XStore p q sg ci => In p (vkeys c) /\ exists m, aget N.eqb ci (vs_cobjs s) = Some m
  | XRet p q (XComplete sg) => exists o x, get_obj s o = Some x /\ vb_seqno (vo_blk x) = q /\ sg = vo_own x
  | XRet p q _ => True
  | CBegin => True
  | CToken => vs_until s = u32_top
  | CRet => vs_until s = u32_top /\ vs_token s = true
  | UBegin q => q <= u32_top
  | UMin q | UCache q _ | UScan q _ | URem q _ | URet q => q <= vs_until s
  | Panicked => False
  end.

Record Inv (c : vcfg) (s : vst) : Prop := {
  i_nd : NoDup (akeys (vs_ths s));
  i_fth : forall t, vs_fresh s <= t -> get_th s t = None;
  i_fobj : forall o, vs_fresh s <= o -> get_obj s o = None;
  i_obj : forall o x, get_obj s o = Some x -> obj_ok c s o x;
  i_cobj : forall ci m, aget N.eqb ci (vs_cobjs s) = Some m -> akeys m = vkeys c;
  i_cache : forall q ci, aget N.eqb q (vs_caches s) = Some ci -> exists m, aget N.eqb ci (vs_cobjs s) = Some m;
  i_fcobj : forall ci, vs_fresh s <= ci -> aget N.eqb ci (vs_cobjs s) = None;
  i_blk : forall q o, aget N.eqb q (vs_blocks s) = Some o -> has_seq s o q;
  i_tok : vs_token s = true -> vs_until s = u32_top;
  i_until : vs_until s <= u32_top;
  i_th : forall t th, get_th s t = Some th -> th_ok c s th
}.

(** [s'] is a later state as far as thread-local facts are concerned *)
Record ext (c : vcfg) (s s' : vst) : Prop := {
  e_obj : forall o x, get_obj s o = Some x -> exists x', get_obj s' o = Some x' /\ vo_blk x' = vo_blk x /\ vo_own x' = vo_own x /\
            (forall p sg, aget N.eqb p (vo_slots x) = Some (Some sg) -> aget N.eqb p (vo_slots x') = Some (Some sg)) /\
            fsum c (vo_slots x) <= fsum c (vo_slots x') /\ (vo_cancelled x = true -> vo_cancelled x' = true);
  e_cobj : forall ci m, aget N.eqb ci (vs_cobjs s) = Some m -> exists m', aget N.eqb ci (vs_cobjs s') = Some m';
  e_until : vs_until s <= vs_until s';
  e_top : vs_until s' <= u32_top;
  e_tok : vs_token s = true -> vs_token s' = true
}.

Lemma ext_has_obj c s s' o b : ext c s s' -> has_obj s o b -> has_obj s' o b.
Proof. intros E (x & G & B). destruct (e_obj _ _ _ E _ _ G) as (x' & G' & B' & _). exists x'. split; congruence. Qed.
Lemma ext_has_seq c s s' o b : ext c s s' -> has_seq s o b -> has_seq s' o b.
Proof. intros E (x & G & B). destruct (e_obj _ _ _ E _ _ G) as (x' & G' & B' & _). exists x'. split; congruence. Qed.
Lemma ext_slot_is c s s' o p sg : ext c s s' -> slot_is s o p sg -> slot_is s' o p sg.
Proof. intros E (x & G & B). destruct (e_obj _ _ _ E _ _ G) as (x' & G' & B' & _ & L & _). exists x'. split; auto. Qed.
Lemma ext_ex c s s' o : ext c s s' -> (exists x, get_obj s o = Some x) -> exists x, get_obj s' o = Some x.
Proof. intros E (x & G). destruct (e_obj _ _ _ E _ _ G) as (x' & G' & _). exists x'. auto. Qed.
Lemma ext_kont c s s' k o : ext c s s' -> kont_ok s k o -> kont_ok s' k o.
Proof. destruct k; cbn [kont_ok]; [apply ext_has_seq|apply ext_ex]. Qed.

Lemma th_ok_ext c s s' th : ext c s s' -> vs_until s <= u32_top -> th_ok c s th -> th_ok c s' th.
Proof.
  intros E U H. pose proof (e_until _ _ _ E) as L. pose proof (e_top _ _ _ E) as L2.
  assert (X : forall q, q <= vs_until s -> q <= vs_until s') by (intros; lia).
  destruct th; cbn [th_ok] in *; auto;
    try (intuition eauto using ext_has_obj, ext_has_seq, ext_slot_is, ext_ex, ext_kont; fail).
  - destruct H as (H1 & H2 & H3 & H4 & m & H5). destruct (e_cobj _ _ _ E _ _ H5) as [m' H6]. eauto 10.
  - destruct H as (H1 & H2 & x & H3 & H4). destruct (e_obj _ _ _ E _ _ H3) as (x' & G' & B' & _). split; [eauto using ext_kont|]. split; [auto|].
    exists x'. split; [auto|]. rewrite B'. auto.
  - destruct H as (H1 & H2 & H3 & H4). split; [eauto using ext_kont|]. split; [auto|]. split; [eauto using ext_slot_is|].
    intros C. destruct (H4 C) as (x & G & T). destruct (e_obj _ _ _ E _ _ G) as (x' & G' & B' & _ & _ & F & _). exists x'. split; [auto|lia].
  - destruct H as (H1 & m & H5). destruct (e_cobj _ _ _ E _ _ H5) as [m' H6]. eauto 10.
  - destruct r; auto. destruct H as (o & x & G & Q & Sg). destruct (e_obj _ _ _ E _ _ G) as (x' & G' & B' & O' & _). exists o, x'. split; [auto|]. split; congruence.
  - lia.
  - destruct H as [H1 H2]. split; [lia|]. apply (e_tok _ _ _ E H2).
Qed.

Lemma N_spec a b : reflect (a = b) (a =? b). Proof. apply N.eqb_spec. Qed.
Lemma nget_aset {V} k (v : V) m k' : aget N.eqb k' (aset N.eqb k v m) = if k' =? k then Some v else aget N.eqb k' m.
Proof. apply aget_aset. apply N_spec. Qed.
Lemma nget_adel {V} k (m : amap N V) k' : aget N.eqb k' (adel N.eqb k m) = if k' =? k then None else aget N.eqb k' m.
Proof. apply aget_adel. apply N_spec. Qed.
Lemma nget_in {V} k (m : amap N V) : In k (akeys m) <-> exists v, aget N.eqb k m = Some v.
Proof.
  induction m as [|[k' v'] m IH]; cbn [akeys map fst In aget].
  - split; [tauto|]. intros [v H]. discriminate H.
  - destruct (N.eqb_spec k k') as [->|Hn].
    + split; [eauto|auto].
    + unfold akeys in IH. rewrite <- IH. split; [intros [E|H]; [congruence|auto]|auto].
Qed.

Lemma keys_aset_same {V} k (v : V) m : In k (akeys m) -> akeys (aset N.eqb k v m) = akeys m.
Proof.
  induction m as [|[k' v'] m IH]; cbn [akeys map fst In aset]; [tauto|].
  destruct (N.eqb_spec k k') as [->|Hn]; [reflexivity|]. intros [E|H]; [congruence|]. cbn [map fst]. f_equal. apply IH. exact H.
Qed.
Lemma keys_aset_new {V} k (v : V) m : ~ In k (akeys m) -> akeys (aset N.eqb k v m) = akeys m ++ [k].
Proof.
  induction m as [|[k' v'] m IH]; cbn [akeys map fst In aset]; [reflexivity|].
  intros H. destruct (N.eqb_spec k k') as [->|Hn]; [tauto|]. cbn [map fst app]. f_equal. apply IH. tauto.
Qed.

Lemma fsum_cons c e m : fsum c (e :: m) = (match snd e with Some _ => wt c (fst e) | None => 0 end) + fsum c m.
Proof. reflexivity. Qed.
Lemma fsum_fill c p sg m : NoDup (akeys m) -> aget N.eqb p m = Some None -> fsum c (aset N.eqb p (Some sg) m) = fsum c m + wt c p.
Proof.
  induction m as [|[k v] m IH]; cbn [akeys map fst aget aset]; [discriminate|].
  intros Nd H. inversion Nd as [|? ? Hn Nd']; subst. destruct (N.eqb_spec p k) as [->|Hk].
  - injection H as ->. rewrite !fsum_cons. cbn [fst snd]. lia.
  - rewrite !fsum_cons, IH by auto. cbn [fst snd]. destruct v; lia.
Qed.
Lemma fsum_new c p v m : ~ In p (akeys m) -> fsum c (aset N.eqb p v m) = fsum c m + match v with Some _ => wt c p | None => 0 end.
Proof.
  induction m as [|[k v'] m IH]; cbn [akeys map fst aset In]; intros H.
  - rewrite !fsum_cons. cbn [fst snd fsum lsum fold_right]. destruct v; lia.
  - destruct (N.eqb_spec p k) as [->|Hk]; [tauto|]. rewrite !fsum_cons, IH by tauto. destruct (snd _); lia.
Qed.
Lemma fsum_le c m : fsum c m <= lsum (wt c) (akeys m).
Proof. induction m as [|[k v] m IH]; [reflexivity|]. rewrite fsum_cons. cbn [akeys map fst snd lsum fold_right]. unfold akeys, lsum in *. destruct v; lia. Qed.

Lemma wta_keys c l : ~ In (vc_own c) l -> lsum (wta c) l = lsum (wt c) l.
Proof.
  intros H. apply lsum_ext. intros x Hx. unfold wta. destruct (N.eqb_spec x (vc_own c)) as [->|]; [tauto|reflexivity].
Qed.
Lemma vall_sum c : NoDup (vall c) -> lsum (wta c) (vall c) = vc_ownw c + lsum (wt c) (vkeys c).
Proof.
  intros H. unfold vall in *. inversion H as [|? ? Hn Hd]; subst. rewrite lsum_cons, wta_keys by auto. unfold wta at 1. rewrite N.eqb_refl. reflexivity.
Qed.
Lemma lsum_perm {T} (f : T -> N) l l' : Permutation.Permutation l l' -> lsum f l = lsum f l'.
Proof. induction 1; cbn [lsum fold_right] in *; unfold lsum in *; lia. Qed.

Lemma vadd_small a b : a + b < u64_mod -> vadd a b = a + b.
Proof. intros H. unfold vadd. apply N.mod_small. exact H. Qed.

(* ---- effects ---- *)
Definition obj_le (c : vcfg) (x x' : vobj) : Prop :=
  vo_blk x' = vo_blk x /\ vo_own x' = vo_own x /\
  (forall p sg, aget N.eqb p (vo_slots x) = Some (Some sg) -> aget N.eqb p (vo_slots x') = Some (Some sg)) /\
  fsum c (vo_slots x) <= fsum c (vo_slots x') /\ (vo_cancelled x = true -> vo_cancelled x' = true).
Lemma obj_le_refl c x : obj_le c x x. Proof. unfold obj_le. repeat split; auto. lia. Qed.

Lemma get_obj_set o x s o' : get_obj (set_obj o x s) o' = if o' =? o then Some x else get_obj s o'.
Proof. unfold get_obj. cbn [set_obj vs_objs]. apply nget_aset. Qed.
Lemma get_th_set t th s t' : get_th (set_th t th s) t' = if t' =? t then Some th else get_th s t'.
Proof. unfold get_th. cbn [set_th vs_ths]. apply nget_aset. Qed.

Lemma inv_set_th c s t th0 th : Inv c s -> get_th s t = Some th0 -> th_ok c s th -> Inv c (set_th t th s).
Proof.
  intros I G H. assert (Ft : t < vs_fresh s).
  { destruct (N.lt_ge_cases t (vs_fresh s)) as [L|L]; [auto|]. rewrite (i_fth _ _ I _ L) in G. discriminate. }
  constructor; try (exact (i_cobj _ _ I)); try exact (i_cache _ _ I); try exact (i_fcobj _ _ I); try exact (i_blk _ _ I); try exact (i_tok _ _ I);
    try exact (i_until _ _ I); try exact (i_fobj _ _ I).
  - cbn [set_th vs_ths]. apply aset_nodup; [apply N_spec|exact (i_nd _ _ I)].
  - intros t' L. rewrite get_th_set. cbn [set_th vs_fresh] in L. destruct (N.eqb_spec t' t); [lia|]. apply (i_fth _ _ I _ L).
  - intros o x Go. destruct (i_obj _ _ I o x Go). constructor; auto.
  - intros t' th' G'. rewrite get_th_set in G'. destruct (N.eqb_spec t' t).
    + injection G' as <-. exact H.
    + exact (i_th _ _ I _ _ G').
Qed.

Lemma inv_ext c s s' : Inv c s -> ext c s s' -> vs_ths s' = vs_ths s -> vs_fresh s <= vs_fresh s' ->
  (forall o, vs_fresh s' <= o -> get_obj s' o = None) ->
  (forall o x, get_obj s' o = Some x -> obj_ok c s' o x) ->
  (forall ci m, aget N.eqb ci (vs_cobjs s') = Some m -> akeys m = vkeys c) ->
  (forall q ci, aget N.eqb q (vs_caches s') = Some ci -> exists m, aget N.eqb ci (vs_cobjs s') = Some m) ->
  (forall ci, vs_fresh s' <= ci -> aget N.eqb ci (vs_cobjs s') = None) ->
  (forall q o, aget N.eqb q (vs_blocks s') = Some o -> has_seq s' o q) ->
  (vs_token s' = true -> vs_until s' = u32_top) -> Inv c s'.
Proof.
  intros I E T F H1 H2 H3 H4 H5 H6 H7. constructor; auto.
  - rewrite T. apply (i_nd _ _ I).
  - intros t L. unfold get_th. rewrite T. apply (i_fth _ _ I). lia.
  - apply (e_top _ _ _ E).
  - intros t th G. unfold get_th in G. rewrite T in G. eapply th_ok_ext; eauto using i_th, i_until.
Qed.

Lemma ext_set_obj c s o x x' : Inv c s -> get_obj s o = Some x -> obj_le c x x' -> ext c s (set_obj o x' s).
Proof.
  intros I G (L1 & L2 & L3 & L4 & L5). constructor.
  - intros o' y Gy. rewrite get_obj_set. destruct (N.eqb_spec o' o) as [->|].
    + rewrite G in Gy. injection Gy as <-. exists x'. auto 10.
    + exists y. destruct (obj_le_refl c y) as (A1 & A2 & A3 & A4 & A5). auto 10.
  - intros ci m Hm. exists m. exact Hm.
  - cbn [set_obj vs_until]. lia.
  - apply (i_until _ _ I).
  - auto.
Qed.
Lemma inv_set_obj c s o x x' : Inv c s -> get_obj s o = Some x -> obj_le c x x' -> akeys (vo_slots x') = vkeys c ->
  slots_valid c (vo_blk x') (vo_slots x') -> (vo_cancelled x' = true -> vb_seqno (vo_blk x') <= vs_until s) ->
  (vo_validated x' = true -> vc_thr c <= vc_ownw c + fsum c (vo_slots x')) -> Inv c (set_obj o x' s).
Proof.
  intros I G L K V C D. pose proof (ext_set_obj _ _ _ _ _ I G L) as E.
  pose proof (i_obj _ _ I _ _ G) as OK.
  assert (Fo : o < vs_fresh s).
  { destruct (N.lt_ge_cases o (vs_fresh s)) as [L'|L']; [auto|]. rewrite (i_fobj _ _ I _ L') in G. discriminate. }
  destruct L as (L1 & L2 & _). eapply inv_ext; [exact I|exact E|reflexivity|cbn [set_obj vs_fresh]; lia|..].
  - intros o' Ho. rewrite get_obj_set. cbn [set_obj vs_fresh] in Ho. destruct (N.eqb_spec o' o); [lia|]. apply (i_fobj _ _ I _ Ho).
  - intros o' y Gy. rewrite get_obj_set in Gy. destruct (N.eqb_spec o' o) as [->|].
    + injection Gy as <-. destruct OK. constructor; auto; rewrite ?L1, ?L2 in *; auto.
    + destruct (i_obj _ _ I o' y Gy). constructor; auto.
  - apply (i_cobj _ _ I).
  - apply (i_cache _ _ I).
  - apply (i_fcobj _ _ I).
  - intros q o' Hb. eapply ext_has_seq; [exact E|]. apply (i_blk _ _ I _ _ Hb).
  - apply (i_tok _ _ I).
Qed.

Lemma inv_caches c s m : Inv c s -> (forall q ci, aget N.eqb q m = Some ci -> exists m', aget N.eqb ci (vs_cobjs s) = Some m') -> Inv c (set_caches m s).
Proof. intros I H. destruct I. constructor; auto. intros o x G. destruct (i_obj0 _ _ G). constructor; auto. Qed.
Lemma inv_min c s m : Inv c s -> Inv c (set_min m s).
Proof. intros I. destruct I. constructor; auto. intros o x G. destruct (i_obj0 _ _ G). constructor; auto. Qed.
Lemma inv_until c s q : Inv c s -> vs_until s <= q -> q <= u32_top -> Inv c (set_until q s).
Proof.
  intros I L L2. eapply inv_ext; [exact I|..]; try reflexivity; try (apply I).
  - constructor; cbn [set_until vs_until]; auto.
    + intros o x G. exists x. destruct (obj_le_refl c x) as (A1 & A2 & A3 & A4 & A5). auto 10.
    + intros ci m H. exists m. exact H.
  - intros o x G. destruct (i_obj _ _ I _ _ G). constructor; cbn [set_until vs_until vs_blocks]; auto.
    + intros H. specialize (ok_canc0 H). lia.
    + intros H. apply ok_live0. lia.
  - cbn [set_until vs_until vs_token]. intros H. pose proof (i_tok _ _ I H). lia.
Qed.
Lemma inv_token c s : Inv c s -> vs_until s = u32_top -> Inv c (set_token s).
Proof.
  intros I L. eapply inv_ext; [exact I|..]; try reflexivity; try (apply I).
  - constructor; cbn [set_token vs_until vs_token]; auto.
    + intros o x G. exists x. destruct (obj_le_refl c x) as (A1 & A2 & A3 & A4 & A5). auto 10.
    + intros ci m H. exists m. exact H.
    + lia.
    + apply (i_until _ _ I).
  - intros o x G. destruct (i_obj _ _ I _ _ G). constructor; auto.
  - auto.
Qed.
Lemma inv_cobj c s ci m : Inv c s -> ci < vs_fresh s -> akeys m = vkeys c -> Inv c (set_cobj ci m s).
Proof.
  intros I F K.
  assert (Gc : forall k, aget N.eqb k (vs_cobjs (set_cobj ci m s)) = if k =? ci then Some m else aget N.eqb k (vs_cobjs s)).
  { intros k. cbn [set_cobj vs_cobjs]. apply nget_aset. }
  eapply inv_ext; [exact I|..]; try reflexivity; try (apply I).
  - constructor; cbn [set_cobj vs_until vs_token]; auto.
    + intros o x G. exists x. destruct (obj_le_refl c x) as (A1 & A2 & A3 & A4 & A5). auto 10.
    + intros k m' H. rewrite Gc. destruct (k =? ci); eauto.
    + lia.
    + apply (i_until _ _ I).
  - intros o x G. destruct (i_obj _ _ I _ _ G). constructor; auto.
  - intros k m' H. rewrite Gc in H. destruct (k =? ci); [congruence|apply (i_cobj _ _ I _ _ H)].
  - intros q k H. rewrite Gc. destruct (k =? ci); [eauto|]. apply (i_cache _ _ I _ _ H).
  - intros k L. rewrite Gc. cbn [set_cobj vs_fresh] in L. destruct (N.eqb_spec k ci); [lia|]. apply (i_fcobj _ _ I _ L).
Qed.
Lemma inv_blocks_del c s q : Inv c s -> q <= vs_until s -> Inv c (set_blocks (adel N.eqb q (vs_blocks s)) s).
Proof.
  intros I L. destruct I. constructor; auto.
  - intros o x G. destruct (i_obj0 _ _ G). constructor; auto. cbn [set_blocks vs_until vs_blocks]. intros H. rewrite nget_adel.
    destruct (N.eqb_spec (vb_seqno (vo_blk x)) q); [lia|auto].
  - intros q' o. cbn [set_blocks vs_blocks]. rewrite nget_adel. destruct (q' =? q); [discriminate|]. apply i_blk0.
Qed.
Lemma inv_bump c s : Inv c s -> Inv c (bump s).
Proof.
  intros I. destruct I. constructor; auto.
  - intros t L. apply i_fth0. cbn [bump vs_fresh] in L. lia.
  - intros t L. apply i_fobj0. cbn [bump vs_fresh] in L. lia.
  - intros o x G. destruct (i_obj0 _ _ G). constructor; auto.
  - intros t L. apply i_fcobj0. cbn [bump vs_fresh] in L. lia.
Qed.
Lemma inv_spawn c s th : Inv c s -> th_ok c s th -> Inv c (spawn th s).
Proof.
  intros I H. pose proof (inv_bump _ _ I) as IB. unfold spawn.
  assert (Gt : forall t, get_th (bump (set_th (vs_fresh s) th s)) t = if t =? vs_fresh s then Some th else get_th s t).
  { intros t. change (get_th (bump (set_th (vs_fresh s) th s)) t) with (get_th (set_th (vs_fresh s) th s) t). apply get_th_set. }
  destruct I. constructor; auto.
  - cbn [bump set_th vs_ths]. apply aset_nodup; [apply N_spec|auto].
  - intros t L. rewrite Gt. cbn [bump set_th vs_fresh] in L. destruct (N.eqb_spec t (vs_fresh s)); [lia|]. apply i_fth0. lia.
  - intros o L. cbn [bump set_th vs_fresh] in L. apply i_fobj0. lia.
  - intros o x G. destruct (i_obj0 _ _ G). constructor; auto.
  - intros o L. cbn [bump set_th vs_fresh] in L. apply i_fcobj0. lia.
  - intros t th' G. rewrite Gt in G. destruct (t =? vs_fresh s); [injection G as <-; exact H|]. exact (i_th0 _ _ G).
Qed.
(** a new block object is registered *)
Lemma inv_insert c s b slots w : Inv c s -> aget N.eqb (vb_seqno b) (vs_blocks s) = None -> vb_seqno b <= u32_top ->
  akeys slots = vkeys c -> slots_valid c b slots -> w = vc_ownw c + fsum c slots ->
  let o := vs_fresh s in
  let x := VO b (vc_sign c (vdata b)) slots w (vc_thr c <=? w) false in
  let s' := bump (set_blocks (aset N.eqb (vb_seqno b) o (vs_blocks s)) (set_obj o x s)) in
  Inv c s' /\ ext c s s' /\ get_obj s' o = Some x.
Proof.
  intros I B Q K V W o x s'.
  assert (Go : forall o', get_obj s' o' = if o' =? o then Some x else get_obj s o').
  { intros o'. change (get_obj s' o') with (get_obj (set_obj o x s) o'). apply get_obj_set. }
  assert (E : ext c s s').
  { constructor.
    - intros o' y Gy. rewrite Go. destruct (N.eqb_spec o' o) as [->|].
      + rewrite (i_fobj _ _ I o) in Gy; [discriminate|]. unfold o. lia.
      + exists y. destruct (obj_le_refl c y) as (A1 & A2 & A3 & A4 & A5). auto 10.
    - intros ci m Hm. exists m. exact Hm.
    - cbn. lia.
    - apply (i_until _ _ I).
    - auto. }
  split; [|split; [exact E|rewrite Go, N.eqb_refl; reflexivity]].
  eapply inv_ext; [exact I|exact E|reflexivity|..]; try (apply I).
  - cbn. lia.
  - intros o' L. rewrite Go. cbn [s' bump set_blocks set_obj vs_fresh] in L. destruct (N.eqb_spec o' o); unfold o in *; [lia|]. apply (i_fobj _ _ I). lia.
  - intros o' y Gy. rewrite Go in Gy. destruct (N.eqb_spec o' o) as [->|].
    + injection Gy as <-. constructor; cbn [vo_blk vo_slots vo_own vo_cancelled vo_validated x]; auto.
      * discriminate.
      * intros _. cbn [s' bump set_blocks set_obj vs_blocks]. rewrite nget_aset, N.eqb_refl. reflexivity.
      * intros H. rewrite N.leb_le in H. rewrite <- W. exact H.
    + destruct (i_obj _ _ I o' y Gy). constructor; auto. intros H. specialize (ok_live0 H). cbn [s' bump set_blocks set_obj vs_blocks]. rewrite nget_aset.
      destruct (N.eqb_spec (vb_seqno (vo_blk y)) (vb_seqno b)) as [E'|]; [|auto]. rewrite E' in ok_live0. congruence.
  - intros ci L. apply (i_fcobj _ _ I). cbn in L. lia.
  - intros q o' Hb. cbn [s' bump set_blocks set_obj vs_blocks] in Hb. rewrite nget_aset in Hb. destruct (N.eqb_spec q (vb_seqno b)) as [->|].
    + injection Hb as <-. exists x. split; [rewrite Go, N.eqb_refl; reflexivity|reflexivity].
    + eapply ext_has_seq; [exact E|]. apply (i_blk _ _ I _ _ Hb).
Qed.
