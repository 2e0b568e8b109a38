(* C65: the tracker protects every state in memory, and holds back nothing else. *)
From Coq Require Import NArith ZArith List Bool Lia.
From Coq Require Import ZifyN ZifyNat ZifyBool.
From Verif Require Import AMap TrkModel RcSpec RcBasics.
Import ListNotations.
Open Scope N_scope.

Definition counted_call (s : N) (c : tcall) : N := match c with RemA x => if s =? x then 1 else 0 | _ => 0 end.
Definition pend_call (s : N) (c : tcall) : N := match c with RemB x => if s =? x then 1 else 0 | _ => 0 end.
Fixpoint tsum (f : tcall -> N) (l : list tcall) : N := match l with [] => 0 | c :: t => f c + tsum f t end.
Lemma tsum_app f a b : tsum f (a ++ b) = tsum f a + tsum f b.
Proof. induction a as [|x a IH]; cbn [app tsum]; lia. Qed.
Lemma tsum_le s l : tsum (counted_call s) l + tsum (pend_call s) l <= N.of_nat (length l).
Proof.
  induction l as [|c l IH]; cbn [tsum length]; [lia|].
  assert (counted_call s c + pend_call s c <= 1) by (destruct c; cbn; try lia; destruct (s =? s0); lia). lia.
Qed.
Lemma occ_len h l : occ h l <= N.of_nat (length l).
Proof. induction l as [|x l IH]; cbn [occ length]; [lia|]. destruct (h =? x); lia. Qed.
Lemma tsum_pend s l : 0 < tsum (pend_call s) l -> In (RemB s) l.
Proof.
  induction l as [|c l IH]; cbn [tsum]; [lia|]. intros H. destruct c as [x|x|x|x]; try (right; apply IH; cbn in H; lia).
  cbn [pend_call] in H. destruct (N.eqb_spec s x) as [->|]; [now left|right; apply IH; lia].
Qed.
Lemma tsum_counted s l : 0 < tsum (counted_call s) l -> In (RemA s) l.
Proof.
  induction l as [|c l IH]; cbn [tsum]; [lia|]. intros H. destruct c as [x|x|x|x]; try (right; apply IH; cbn in H; lia).
  cbn [counted_call] in H. destruct (N.eqb_spec s x) as [->|]; [now left|right; apply IH; lia].
Qed.

Definition is_min (m : option N) (l : list N) : Prop :=
  match m with Some x => In x l /\ forall y, In y l -> x <= y | None => l = [] end.
Lemma lmin_ok l : is_min (lmin l) l.
Proof.
  induction l as [|x l IH]; cbn [lmin is_min]; [reflexivity|]. destruct (lmin l) as [m|]; cbn [is_min] in *.
  - destruct IH as [A B]. split.
    + destruct (N.min_spec x m) as [[_ ->]|[_ ->]]; [now left|now right].
    + intros y [<-|Hy]; [lia|]. specialize (B y Hy). lia.
  - subst l. split; [now left|]. intros y [<-|[]]. lia.
Qed.

Definition cnt (tr : tracker) (s : N) : N := match aget N.eqb s (tr_refs tr) with Some c => c | None => 0 end.
Record TI (S : tsys) : Prop := {
  ti_nd : NoDup (akeys (tr_refs (ts_tr S)));
  ti_min : is_min (tr_min (ts_tr S)) (akeys (tr_refs (ts_tr S)));
  ti_cnt : forall s, cnt (ts_tr S) s = occ s (ts_live S) + tsum (counted_call s) (ts_calls S);
  ti_zero : forall s, aget N.eqb s (tr_refs (ts_tr S)) = Some 0 -> 0 < tsum (pend_call s) (ts_calls S);
  ti_len : N.of_nat (length (ts_live S) + length (ts_calls S)) < 2 ^ 32
}.

Lemma u32_add_ok x : x < 2 ^ 32 - 1 -> u32_add x = x + 1.
Proof. intros H. unfold u32_add. apply N.mod_small. lia. Qed.
Lemma u32_sub_ok x : 0 < x -> x < 2 ^ 32 -> u32_sub x = x - 1.
Proof.
  intros H H2. unfold u32_sub. replace (x + 2 ^ 32 - 1) with ((x - 1) + 1 * 2 ^ 32) by lia.
  rewrite N.mod_add by lia. apply N.mod_small. lia.
Qed.
Lemma cnt_aset m refs s c k : cnt (mkTr m (aset N.eqb s c refs)) k = if k =? s then c else cnt (mkTr m refs) k.
Proof. unfold cnt. cbn [tr_refs]. rewrite nget_aset. destruct (k =? s); reflexivity. Qed.
Lemma is_min_ext m l l' : (forall x, In x l <-> In x l') -> is_min m l -> is_min m l'.
Proof.
  intros E. destruct m as [x|]; cbn [is_min].
  - intros [A B]. split; [now apply E|]. intros y Hy. apply B. now apply E.
  - intros ->. destruct l' as [|y l']; [reflexivity|]. exfalso. apply (proj2 (E y)). now left.
Qed.
Lemma keys_aset_old s c c0 (refs : list (N * N)) : aget N.eqb s refs = Some c0 ->
  forall x, In x (akeys refs) <-> In x (akeys (aset N.eqb s c refs)).
Proof.
  intros E x. rewrite (akeys_aset_in N.eqb N.eqb_spec). split; [tauto|]. intros [->|H]; [|exact H].
  apply nget_key. now exists c0.
Qed.

(* the counter of s goes up: entry present *)
Lemma bump_TI tr l a b s c0 call : aget N.eqb s (tr_refs tr) = Some c0 ->
  (forall k, counted_call k call = 0) -> (forall k, pend_call k call = 0) ->
  TI (mkTS tr l (a ++ call :: b)) ->
  TI (mkTS (mkTr (tr_min tr) (aset N.eqb s (u32_add c0) (tr_refs tr))) (s :: l) (a ++ b)).
Proof.
  intros E C0 P0 [ND MN CN ZE LN]. cbn [ts_tr ts_live ts_calls] in *.
  assert (EC : c0 = occ s l + tsum (counted_call s) (a ++ call :: b)).
  { specialize (CN s). unfold cnt in CN. now rewrite E in CN. }
  rewrite app_length in LN. cbn [length] in LN.
  pose proof (occ_len s l). pose proof (tsum_le s a). pose proof (tsum_le s b).
  rewrite tsum_app in EC. cbn [tsum] in EC. rewrite C0 in EC.
  assert (UA : u32_add c0 = c0 + 1) by (apply u32_add_ok; lia).
  constructor; cbn [ts_tr ts_live ts_calls tr_refs tr_min].
  - now apply (aset_nodup N.eqb N.eqb_spec).
  - refine (is_min_ext _ _ _ _ MN). exact (keys_aset_old s _ c0 _ E).
  - intros k. rewrite cnt_aset. specialize (CN k). rewrite tsum_app in CN. cbn [tsum] in CN. rewrite C0 in CN.
    rewrite tsum_app. cbn [occ]. destruct (N.eqb_spec k s) as [->|].
    + rewrite UA. lia.
    + unfold cnt in *. cbn [tr_refs] in *. lia.
  - intros k. rewrite nget_aset. destruct (N.eqb_spec k s) as [->|].
    + intros [= Q]. lia.
    + intros Q. specialize (ZE k Q). rewrite tsum_app in ZE. cbn [tsum] in ZE. rewrite P0 in ZE. rewrite tsum_app. lia.
  - cbn [length]. rewrite app_length. lia.
Qed.

Lemma TI_step S S' : TI S -> tstep S S' -> TI S'.
Proof.
  intros I ST. inversion ST as [tr l c s LT|tr l a s b tr' E|tr l a s b tr' E|tr l a s b|tr x s y c|tr l a s b tr' E|tr l a s b tr' E|tr l a s b]; subst.
  - destruct I as [ND MN CN ZE LN]. cbn [ts_tr ts_live ts_calls] in *.
    constructor; cbn [ts_tr ts_live ts_calls tsum counted_call pend_call length]; try assumption.
    lia.
  - unfold ins_read in E. destruct (aget N.eqb s (tr_refs tr)) as [c0|] eqn:G; [|discriminate]. injection E as <-.
    exact (bump_TI tr l a b s c0 (InsA s) G (fun _ => eq_refl) (fun _ => eq_refl) I).
  - unfold ins_read in E. destruct (aget N.eqb s (tr_refs tr)) as [c0|] eqn:G; [discriminate|]. injection E as <-.
    destruct I as [ND MN CN ZE LN]. cbn [ts_tr ts_live ts_calls] in *.
    constructor; cbn [ts_tr ts_live ts_calls]; [exact ND|exact MN| | |].
    + intros k. specialize (CN k). rewrite tsum_app in *. exact CN.
    + intros k Q. specialize (ZE k Q). rewrite tsum_app in *. exact ZE.
    + rewrite app_length in *. exact LN.
  - unfold ins_write. destruct (aget N.eqb s (tr_refs tr)) as [c0|] eqn:G.
    + exact (bump_TI tr l a b s c0 (InsB s) G (fun _ => eq_refl) (fun _ => eq_refl) I).
    + destruct I as [ND MN CN ZE LN]. cbn [ts_tr ts_live ts_calls] in *.
      assert (CS : occ s l + tsum (counted_call s) (a ++ InsB s :: b) = 0).
      { specialize (CN s). unfold cnt in CN. now rewrite G in CN. }
      constructor; cbn [ts_tr ts_live ts_calls tr_refs tr_min].
      * now apply (aset_nodup N.eqb N.eqb_spec).
      * destruct (tr_min tr) as [m|]; cbn [is_min] in MN.
        -- destruct MN as [A B]. destruct (N.ltb_spec s m); cbn [is_min]; split.
           ++ apply (akeys_aset_in N.eqb N.eqb_spec). now left.
           ++ intros y Hy. apply (akeys_aset_in N.eqb N.eqb_spec) in Hy. destruct Hy as [->|Hy]; [lia|]. specialize (B y Hy). lia.
           ++ apply (akeys_aset_in N.eqb N.eqb_spec). now right.
           ++ intros y Hy. apply (akeys_aset_in N.eqb N.eqb_spec) in Hy. destruct Hy as [->|Hy]; [lia|]. exact (B y Hy).
        -- cbn [is_min]. split; [apply (akeys_aset_in N.eqb N.eqb_spec); now left|].
           intros y Hy. apply (akeys_aset_in N.eqb N.eqb_spec) in Hy. rewrite MN in Hy. destruct Hy as [->|[]]. lia.
      * intros k. rewrite cnt_aset. specialize (CN k). rewrite tsum_app in CN, CS. cbn [tsum counted_call] in CN, CS.
        rewrite tsum_app. cbn [occ]. destruct (N.eqb_spec k s) as [Ek|]; [subst k; lia|]. unfold cnt in *. cbn [tr_refs] in *. lia.
      * intros k. rewrite nget_aset. destruct (k =? s); [discriminate|]. intros Q. specialize (ZE k Q).
        rewrite tsum_app in *. cbn [tsum pend_call] in ZE. lia.
      * cbn [length]. rewrite app_length in *. cbn [length] in LN. lia.
  - destruct I as [ND MN CN ZE LN]. cbn [ts_tr ts_live ts_calls] in *.
    constructor; cbn [ts_tr ts_live ts_calls]; [exact ND|exact MN| | |].
    + intros k. specialize (CN k). rewrite occ_app in *. cbn [occ tsum counted_call] in *. destruct (k =? s); lia.
    + intros k Q. specialize (ZE k Q). cbn [tsum pend_call]. lia.
    + rewrite app_length in *. cbn [length] in *. lia.
  - unfold rem_read in E. destruct I as [ND MN CN ZE LN]. cbn [ts_tr ts_live ts_calls] in *.
    pose proof (CN s) as CS. unfold cnt in CS. rewrite tsum_app in CS. cbn [tsum counted_call] in CS. rewrite N.eqb_refl in CS.
    rewrite app_length in LN. cbn [length] in LN.
    destruct (aget N.eqb s (tr_refs tr)) as [c0|] eqn:G; [|lia].
    assert (E1 : tr' = mkTr (tr_min tr) (aset N.eqb s (u32_sub c0) (tr_refs tr))) by congruence.
    assert (E2 : (1 <? c0) = true) by congruence. clear E. subst tr'. apply N.ltb_lt in E2.
    pose proof (occ_len s l). pose proof (tsum_le s a). pose proof (tsum_le s b).
    assert (US : u32_sub c0 = c0 - 1) by (apply u32_sub_ok; lia).
    constructor; cbn [ts_tr ts_live ts_calls tr_refs tr_min].
    + now apply (aset_nodup N.eqb N.eqb_spec).
    + refine (is_min_ext _ _ _ _ MN). exact (keys_aset_old s _ c0 _ G).
    + intros k. rewrite cnt_aset. specialize (CN k). rewrite tsum_app in CN. cbn [tsum counted_call] in CN.
      rewrite tsum_app. destruct (N.eqb_spec k s) as [Ek|]; [subst k; rewrite US; lia|]. unfold cnt in *. cbn [tr_refs] in *. lia.
    + intros k. rewrite nget_aset. destruct (N.eqb_spec k s) as [Ek|]; [subst k; intros [= Q]; lia|].
      intros Q. specialize (ZE k Q). rewrite tsum_app in *. cbn [tsum pend_call] in ZE. lia.
    + rewrite app_length. lia.
  - unfold rem_read in E. destruct I as [ND MN CN ZE LN]. cbn [ts_tr ts_live ts_calls] in *.
    pose proof (CN s) as CS. unfold cnt in CS. rewrite tsum_app in CS. cbn [tsum counted_call] in CS. rewrite N.eqb_refl in CS.
    rewrite app_length in LN. cbn [length] in LN.
    destruct (aget N.eqb s (tr_refs tr)) as [c0|] eqn:G; [|discriminate].
    assert (E1 : tr' = mkTr (tr_min tr) (aset N.eqb s (u32_sub c0) (tr_refs tr))) by congruence.
    assert (E2 : (1 <? c0) = false) by congruence. clear E. subst tr'. apply N.ltb_ge in E2.
    assert (US : u32_sub c0 = c0 - 1) by (apply u32_sub_ok; lia).
    constructor; cbn [ts_tr ts_live ts_calls tr_refs tr_min].
    + now apply (aset_nodup N.eqb N.eqb_spec).
    + refine (is_min_ext _ _ _ _ MN). exact (keys_aset_old s _ c0 _ G).
    + intros k. rewrite cnt_aset. specialize (CN k). rewrite tsum_app in CN. cbn [tsum counted_call] in CN.
      rewrite tsum_app. cbn [tsum counted_call]. destruct (N.eqb_spec k s) as [Ek|]; [subst k; rewrite US; lia|].
      unfold cnt in *. cbn [tr_refs] in *. lia.
    + intros k. rewrite nget_aset. rewrite tsum_app. cbn [tsum pend_call]. destruct (N.eqb_spec k s) as [Ek|].
      * subst k. intros _. lia.
      * intros Q. specialize (ZE k Q). rewrite tsum_app in ZE. cbn [tsum pend_call] in ZE. lia.
    + rewrite app_length. cbn [length]. lia.
  - unfold rem_write. destruct I as [ND MN CN ZE LN]. cbn [ts_tr ts_live ts_calls] in *.
    rewrite app_length in LN. cbn [length] in LN.
    destruct (aget N.eqb s (tr_refs tr)) as [c0|] eqn:G; [destruct (N.eqb_spec c0 0) as [->|NZ]|].
    + constructor; cbn [ts_tr ts_live ts_calls tr_refs tr_min].
      * now apply (adel_nodup N.eqb).
      * destruct (tr_min tr) as [m|]; cbn [is_min] in MN.
        -- destruct MN as [A B]. destruct (N.eqb_spec m s) as [->|NE]; [apply lmin_ok|]. cbn [is_min]. split.
           ++ apply nget_key. apply nget_key in A. destruct A as (v & A). exists v. rewrite nget_adel.
              apply N.eqb_neq in NE. now rewrite NE.
           ++ intros y Hy. apply B. apply nget_key in Hy. destruct Hy as (v & Hy). rewrite nget_adel in Hy.
              apply nget_key. destruct (y =? s); [discriminate|now exists v].
        -- exfalso. assert (X : In s (akeys (tr_refs tr))) by (apply nget_key; now exists 0). rewrite MN in X. destruct X.
      * intros k. specialize (CN k). rewrite tsum_app in *. cbn [tsum counted_call] in CN.
        unfold cnt in *. cbn [tr_refs]. rewrite nget_adel. destruct (N.eqb_spec k s) as [Ek|]; [subst k|lia].
        rewrite G in CN. lia.
      * intros k. rewrite nget_adel. destruct (N.eqb_spec k s) as [Ek|NE]; [subst k; discriminate|]. intros Q. specialize (ZE k Q).
        rewrite tsum_app in *. cbn [tsum pend_call] in ZE. apply N.eqb_neq in NE. rewrite NE in ZE. lia.
      * rewrite app_length. lia.
    + constructor; cbn [ts_tr ts_live ts_calls]; [exact ND|exact MN| | |].
      * intros k. specialize (CN k). rewrite tsum_app in *. cbn [tsum counted_call] in CN. lia.
      * intros k Q. specialize (ZE k Q). rewrite tsum_app in *. cbn [tsum pend_call] in ZE.
        destruct (N.eqb_spec k s) as [Ek|]; [subst k; congruence|lia].
      * rewrite app_length. lia.
    + constructor; cbn [ts_tr ts_live ts_calls]; [exact ND|exact MN| | |].
      * intros k. specialize (CN k). rewrite tsum_app in *. cbn [tsum counted_call] in CN. lia.
      * intros k Q. specialize (ZE k Q). rewrite tsum_app in *. cbn [tsum pend_call] in ZE.
        destruct (N.eqb_spec k s) as [Ek|]; [subst k; congruence|lia].
      * rewrite app_length. lia.
Qed.

Lemma treach_TI S : treach S -> TI S.
Proof.
  intros H. induction H as [|S S' H IH ST]; [|exact (TI_step S S' IH ST)].
  constructor; cbn [ts_tr ts_live ts_calls tr_refs tr_new tr_min]; [constructor|reflexivity|reflexivity| |reflexivity].
  intros s Q. discriminate.
Qed.

(* While a handle exists, the tracker's seqno is there and is not above it,
   whatever other threads are in the middle of. *)
Theorem tracker_protects S : treach S -> forall s, In s (ts_live S) ->
  exists m, tr_seqno (ts_tr S) = Some m /\ m <= s.
Proof.
  intros H s Hs. destruct (treach_TI S H) as [ND MN CN ZE LN].
  assert (K : In s (akeys (tr_refs (ts_tr S)))).
  { specialize (CN s). unfold cnt in CN. apply nget_key. destruct (aget N.eqb s (tr_refs (ts_tr S))) as [c|]; [now exists c|].
    apply occ_in in Hs. lia. }
  unfold tr_seqno. destruct (tr_min (ts_tr S)) as [m|]; cbn [is_min] in MN.
  - exists m. split; [reflexivity|]. now apply MN.
  - rewrite MN in K. destruct K.
Qed.

(* It holds nothing back without reason: the seqno is that of an existing
   handle or of one whose drop is still running. *)
Theorem tracker_held S : treach S -> forall m, tr_seqno (ts_tr S) = Some m ->
  In m (ts_live S) \/ In (RemA m) (ts_calls S) \/ In (RemB m) (ts_calls S).
Proof.
  intros H m E. destruct (treach_TI S H) as [ND MN CN ZE LN]. unfold tr_seqno in E. rewrite E in MN. cbn [is_min] in MN.
  destruct MN as [K _]. apply nget_key in K. destruct K as (c & G). specialize (CN m). unfold cnt in CN. rewrite G in CN.
  destruct (N.eq_dec c 0) as [->|NZ].
  - right. right. apply tsum_pend. now apply ZE.
  - destruct (N.eq_dec (occ m (ts_live S)) 0) as [Z|Z].
    + right. left. apply tsum_counted. lia.
    + left. apply occ_in. lia.
Qed.

(* When no call is running it is exactly the least seqno of the existing
   handles, and there is none when there are no handles. *)
Theorem tracker_exact S : treach S -> ts_calls S = [] ->
  match tr_seqno (ts_tr S) with
  | Some m => In m (ts_live S) /\ forall s, In s (ts_live S) -> m <= s
  | None => ts_live S = []
  end.
Proof.
  intros H E. destruct (tr_seqno (ts_tr S)) as [m|] eqn:Q.
  - split.
    + destruct (tracker_held S H m Q) as [A|[A|A]]; [exact A|rewrite E in A; destruct A..].
    + intros s Hs. destruct (tracker_protects S H s Hs) as (m' & A & B). congruence.
  - destruct (ts_live S) as [|s l] eqn:L; [reflexivity|].
    destruct (tracker_protects S H s) as (m & A & _); [rewrite L; now left|congruence].
Qed.

(* of two handles the one that is kept protects what both protect *)
Theorem min_safe_protects a b : forall s, a = Some s \/ b = Some s ->
  exists m, min_safe a b = Some m /\ m <= s /\ (a = Some m \/ b = Some m).
Proof.
  intros s H. unfold min_safe. destruct a as [x|], b as [y|].
  - destruct (N.ltb_spec y x); [exists y|exists x]; (split; [reflexivity|]); (split; [|tauto]); destruct H as [[= ->]|[= ->]]; lia.
  - exists x. split; [reflexivity|]. split; [|tauto]. destruct H as [[= ->]|H]; [lia|discriminate].
  - exists y. split; [reflexivity|]. split; [|tauto]. destruct H as [H|[= ->]]; [discriminate|lia].
  - destruct H; discriminate.
Qed.

(* a race: a drop has counted down to zero, a new handle of the same seqno
   appears before the drop takes the write lock *)
Definition ex_sys : tsys := mkTS (mkTr (Some 7) [(7, 1); (9, 1)]) [7; 9] [RemB 7].
Theorem tracker_example : treach ex_sys /\
  tstep ex_sys (mkTS (mkTr (Some 7) [(7, 1); (9, 1)]) [7; 9] []).
Proof.
  split; [|exact (t_remb (mkTr (Some 7) [(7, 1); (9, 1)]) [7; 9] [] 7 [])].
  assert (S1 : treach (mkTS tr_new [] [InsA 7])) by (eapply tr_step; [apply tr_init|apply t_ins; reflexivity]).
  assert (S2 : treach (mkTS tr_new [] [InsB 7])) by (eapply tr_step; [exact S1|exact (t_insa tr_new [] [] 7 [] tr_new eq_refl)]).
  assert (S3 : treach (mkTS (mkTr (Some 7) [(7, 1)]) [7] [])) by (eapply tr_step; [exact S2|exact (t_insb tr_new [] [] 7 [])]).
  assert (S4 : treach (mkTS (mkTr (Some 7) [(7, 1)]) [7] [InsA 9])) by (eapply tr_step; [exact S3|apply t_ins; reflexivity]).
  assert (S5 : treach (mkTS (mkTr (Some 7) [(7, 1)]) [7] [InsB 9])) by (eapply tr_step; [exact S4|exact (t_insa (mkTr (Some 7) [(7, 1)]) [7] [] 9 [] (mkTr (Some 7) [(7, 1)]) eq_refl)]).
  assert (S6 : treach (mkTS (mkTr (Some 7) [(7, 1); (9, 1)]) [9; 7] [])) by (eapply tr_step; [exact S5|exact (t_insb (mkTr (Some 7) [(7, 1)]) [7] [] 9 [])]).
  assert (S7 : treach (mkTS (mkTr (Some 7) [(7, 1); (9, 1)]) [9] [RemA 7])) by (eapply tr_step; [exact S6|exact (t_drop (mkTr (Some 7) [(7, 1); (9, 1)]) [9] 7 [] [])]).
  assert (S8 : treach (mkTS (mkTr (Some 7) [(7, 0); (9, 1)]) [9] [RemB 7])) by (eapply tr_step; [exact S7|exact (t_rema (mkTr (Some 7) [(7, 1); (9, 1)]) [9] [] 7 [] (mkTr (Some 7) [(7, 0); (9, 1)]) eq_refl)]).
  assert (S9 : treach (mkTS (mkTr (Some 7) [(7, 0); (9, 1)]) [9] [InsA 7; RemB 7])) by (eapply tr_step; [exact S8|apply t_ins; reflexivity]).
  eapply tr_step; [exact S9|exact (t_insa_done (mkTr (Some 7) [(7, 0); (9, 1)]) [9] [] 7 [RemB 7] (mkTr (Some 7) [(7, 1); (9, 1)]) eq_refl)].
Qed.
