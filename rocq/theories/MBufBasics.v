(** * MBufBasics: what one move of messages does *)

From Coq Require Import List NArith ZArith Bool PeanoNat Permutation Lia.
From Verif Require Import AMap MBufModel MBufSpec.
Import ListNotations.

Definition Neqs := N.eqb_spec.
Lemma Nateqs : forall a b, reflect (a = b) (Nat.eqb a b).
Proof. intros a b. destruct (Nat.eqb a b) eqn:E; constructor; [now apply Nat.eqb_eq|now apply Nat.eqb_neq]. Qed.

Lemma of_acc_set a a' l m : of_acc a' (mset a l m) = if N.eqb a' a then l else of_acc a' m.
Proof. unfold of_acc. rewrite (aget_aset N.eqb Neqs). now destruct (N.eqb a' a). Qed.

Lemma all_split a m : exists R, Permutation (all_msgs m) (of_acc a m ++ R) /\
  forall l, Permutation (all_msgs (mset a l m)) (l ++ R).
Proof.
  unfold all_msgs, of_acc. induction m as [|[k v] m (R & H1 & H2)].
  - exists []. split; [reflexivity|]. intros l. cbn. reflexivity.
  - cbn [aget aset map snd concat]. destruct (Neqs a k) as [->|Hn].
    + exists (concat (map snd m)). split; [reflexivity|]. intros l. reflexivity.
    + exists (v ++ R). split.
      * rewrite H1. apply Permutation_app_swap_app.
      * intros l. cbn [map snd concat]. rewrite (H2 l). apply Permutation_app_swap_app.
Qed.

Lemma aget_set_same (m : amap N (list msg)) a v : mget a m = Some v -> mset a v m = m.
Proof.
  induction m as [|[k w] m IH]; cbn [aget aset]; [discriminate|].
  destruct (Neqs a k) as [->|Hn]; intros E; [congruence|]. now rewrite IH.
Qed.
Lemma adel_none (m : amap N (list msg)) a : mget a m = None -> mdel a m = m.
Proof.
  unfold adel. induction m as [|[k w] m IH]; cbn [aget filter fst]; [reflexivity|].
  destruct (Neqs a k) as [->|Hn]; intros E; [discriminate|]. cbn [negb]. now rewrite IH.
Qed.
Lemma akeys_set_same {A} (m : amap N A) a v w : mget a m = Some w -> akeys (mset a v m) = akeys m.
Proof.
  unfold akeys. induction m as [|[k u] m IH]; cbn [aget aset map fst]; [discriminate|].
  destruct (Neqs a k) as [->|Hn]; intros E; [reflexivity|]. cbn [map fst]. now rewrite IH.
Qed.

(** ** Counting *)
Lemma nint_app l k : nint (l ++ k) = nint l + nint k.
Proof. unfold nint. now rewrite filter_app, app_length. Qed.
Lemma next_app l k : next (l ++ k) = next l + next k.
Proof. unfold next. now rewrite filter_app, app_length. Qed.
Lemma int_ext_len l : nint l + next l = length l.
Proof.
  induction l as [|m l IH]; [reflexivity|].
  unfold nint, next in *. cbn [filter]. unfold is_int at 1. destruct (is_ext m); cbn; lia.
Qed.
Lemma filter_perm {A} (f : A -> bool) l k : Permutation l k -> Permutation (filter f l) (filter f k).
Proof.
  induction 1; cbn.
  - constructor.
  - destruct (f x); [now constructor|assumption].
  - destruct (f x), (f y); try apply perm_swap; reflexivity.
  - etransitivity; eassumption.
Qed.
Lemma nint_perm l k : Permutation l k -> nint l = nint k.
Proof. intros H. apply Permutation_length, filter_perm, H. Qed.
Lemma next_perm l k : Permutation l k -> next l = next k.
Proof. intros H. apply Permutation_length, filter_perm, H. Qed.

Lemma skip_is_ext fl m : should_skip fl m = true -> is_ext m = true.
Proof. unfold should_skip, is_ext. destruct fl, (m_ext m); congruence. Qed.
Lemma skipped_next fl l : Forall (fun m => should_skip fl m = true) l -> next l = length l /\ nint l = 0.
Proof.
  induction 1 as [|m l H _ [IH1 IH2]]; [split; reflexivity|].
  apply skip_is_ext in H. unfold next, nint, is_int in *. cbn [filter]. rewrite H. cbn. lia.
Qed.

Definition expired (fl : filt) (l : list msg) : list msg := filter (should_skip fl) l.

Lemma keep_expired fl l : Permutation l (filter (keep fl) l ++ expired fl l).
Proof.
  unfold keep, expired. induction l as [|m l IH]; [constructor|]. cbn [filter].
  destruct (should_skip fl m); cbn [negb].
  - rewrite IH at 1. apply Permutation_middle.
  - cbn. now constructor.
Qed.
Lemma expired_all fl l : Forall (fun m => should_skip fl m = true) (expired fl l).
Proof. apply Forall_forall. intros m H. now apply filter_In in H. Qed.
Lemma kept_all fl l : Forall (fun m => keep fl m = true) (filter (keep fl) l).
Proof. apply Forall_forall. intros m H. now apply filter_In in H. Qed.
Lemma expired_len fl l : length (expired fl l) = length l - length (filter (keep fl) l).
Proof. pose proof (Permutation_length (keep_expired fl l)) as H. rewrite app_length in H. lia. Qed.

Lemma filter_filter_id fl l : filter (keep fl) (filter (keep fl) l) = filter (keep fl) l.
Proof.
  induction l as [|m l IH]; [reflexivity|]. cbn [filter]. destruct (keep fl m) eqn:E; [|assumption].
  cbn [filter]. now rewrite E, IH.
Qed.

(** ** The popping loop *)
Lemma pop_loop_spec fl l : forall n c r k, pop_loop fl n l = (c, r, k) ->
  exists p, l = p ++ r /\ c = filter (keep fl) p /\ k = length (expired fl p) /\
            length c <= n /\ (length c < n -> r = []) /\ (c = [] -> n = 0 \/ r = []).
Proof.
  induction l as [|m l IH]; intros n c r k E; cbn [pop_loop] in E.
  - injection E as <- <- <-. exists []. repeat split; cbn; auto; lia.
  - destruct n as [|n].
    + injection E as <- <- <-. exists []. repeat split; cbn; auto; try lia.
    + destruct (should_skip fl m) eqn:Hs.
      * destruct (pop_loop fl (S n) l) as [[c1 r1] k1] eqn:E1. injection E as <- <- <-.
        destruct (IH _ _ _ _ E1) as (p & -> & -> & -> & H1 & H2 & H3).
        exists (m :: p). unfold keep, expired. cbn [filter]. rewrite Hs. cbn [negb]. repeat split; auto.
      * destruct (pop_loop fl n l) as [[c1 r1] k1] eqn:E1. injection E as <- <- <-.
        destruct (IH _ _ _ _ E1) as (p & -> & -> & -> & H1 & H2 & H3).
        exists (m :: p). unfold keep, expired. cbn [filter]. rewrite Hs. cbn [negb].
        split; [reflexivity|]. split; [reflexivity|]. split; [reflexivity|].
        split; [cbn [length]; unfold keep in H1; lia|].
        split; [cbn [length]; intros H; apply H2; unfold keep; lia|discriminate].
Qed.

(** ** What a move does *)
Inductive moved_as (fl : filt) (a : N) (cx : ctx) (f : fstate) : fstate -> ctx -> Prop :=
| Mv_none : mget a (b_msgs (f_buf f)) = None -> moved_as fl a cx f f cx
| Mv_full l : mget a (b_msgs (f_buf f)) = Some l -> l = [] \/ c_cap cx = 0 ->
    moved_as fl a cx f (set_buf (save a l (f_buf f)) f) cx
| Mv_drop l : mget a (b_msgs (f_buf f)) = Some l -> c_cap cx <> 0 -> filter (keep fl) l = [] ->
    moved_as fl a cx f
      (mkF (set_account a [] (length (expired fl l)) 0 (save a l (f_buf f))) (f_msgs f)
           (f_slots f) (f_last f) (f_upds f) (f_keys f) (f_count f) (f_skip f)
           (length (expired fl l) + f_expired f)) cx
| Mv_take l p r c s : mget a (b_msgs (f_buf f)) = Some l -> l = p ++ r -> c = filter (keep fl) p -> c <> [] ->
    length c <= c_cap cx -> (length c < c_cap cx -> r = []) ->
    s = mkSlot (if is_nil (of_acc a (f_msgs f)) then s_accs (slot_of (c_id cx) f) ++ [a]
                else s_accs (slot_of (c_id cx) f))
               (s_int (slot_of (c_id cx) f) + nint c) (s_ext (slot_of (c_id cx) f) + next c) ->
    moved_as fl a cx f
      (mkF (set_account a r (length (expired fl p) + next c) (nint c) (save a l (f_buf f)))
           (mset a (of_acc a (f_msgs f) ++ c) (f_msgs f))
           (sset (c_id cx) s (f_slots f)) (f_last f)
           (upd_note (c_id cx) (c_oi cx) (c_oe cx) (s_int s) (s_ext s) (f_upds f))
           (f_keys f ++ map m_key (filter is_int c))
           (f_count f + length c) (f_skip f) (length (expired fl p) + f_expired f))
      (mkCx (c_id cx) (c_oi cx) (c_oe cx) (c_cap cx - length c)).

Lemma move_cases fl a cx f :
  (forall l, mget a (f_msgs f) = Some l -> l <> []) ->
  moved_as fl a cx f (fst (move fl a cx f)) (snd (move fl a cx f)).
Proof.
  intros Hne. unfold move. destruct (mget a (b_msgs (f_buf f))) as [l|] eqn:E; [|now constructor].
  destruct (Nateqs (Nat.min (length l) (c_cap cx)) 0) as [Hz|Hz].
  - apply Mv_full; [assumption|]. destruct l; [now left|]. right. cbn [snd]. cbn [length] in Hz. lia.
  - destruct (pop_loop fl _ l) as [[c r] k] eqn:Ep.
    destruct (pop_loop_spec _ _ _ _ _ _ Ep) as (p & El & Ec & Ek & Hc1 & Hc2 & Hc3).
    fold (of_acc a (f_msgs f)). fold (nint c) (next c). rewrite int_ext_len.
    destruct (Nateqs (length c) 0) as [Hc0|Hc0].
    + apply length_zero_iff_nil in Hc0. assert (r = []) as -> by (destruct (Hc3 Hc0); [contradiction|assumption]).
      rewrite app_nil_r in El. subst p. rewrite Hc0 in *. rewrite app_nil_r.
      assert (Hg : (if is_nil (of_acc a (f_msgs f)) then mdel a (f_msgs f)
                    else mset a (of_acc a (f_msgs f)) (f_msgs f)) = f_msgs f).
      { unfold of_acc. destruct (mget a (f_msgs f)) as [v|] eqn:Ev; cbn [is_nil].
        - specialize (Hne _ eq_refl). destruct v; [congruence|]. cbn. now apply aget_set_same.
        - now apply adel_none. }
      rewrite Hg. cbn [fst snd]. subst k. replace (length (expired fl l) + next []) with (length (expired fl l)) by (cbn; lia).
      apply Mv_drop; auto. intros H0. rewrite H0 in Hz. lia.
    + cbn [fst snd]. assert (Hn : is_nil (of_acc a (f_msgs f) ++ c) = false)
        by (destruct (of_acc a (f_msgs f)); [|reflexivity]; destruct c; [now cbn in Hc0|reflexivity]).
      rewrite Hn. subst k. eapply Mv_take; try eassumption; try reflexivity.
      * intros ->. now apply Hc0.
      * pose proof (Nat.le_min_r (length l) (c_cap cx)). lia.
      * intros H. destruct (Nat.leb_spec (length l) (c_cap cx)) as [Hle|Hlt].
        -- destruct (Nat.eq_dec (length c) (length l)) as [He|He].
           ++ assert (length p + length r = length l) as HL by (rewrite El at 1; now rewrite app_length).
              assert (length c <= length p) as HP.
              { rewrite Ec. pose proof (Permutation_length (keep_expired fl p)) as HK. rewrite app_length in HK. lia. }
              apply length_zero_iff_nil. lia.
           ++ apply Hc2. rewrite Nat.min_l by lia.
              assert (length c <= length l); [|lia].
              rewrite Ec, El. pose proof (Permutation_length (keep_expired fl p)) as HK. rewrite !app_length in *. lia.
        -- apply Hc2. rewrite Nat.min_r by lia. lia.
Qed.

(** ** What dropping the expired messages of an account does *)
Inductive skipped_as (fl : filt) (a : N) (f : fstate) : fstate -> Prop :=
| Sk_none : skipped_as fl a f f
| Sk_some l : mget a (b_msgs (f_buf f)) = Some l ->
    skipped_as fl a f
      (mkF (set_account a (filter (keep fl) l) (length (expired fl l)) 0 (save a l (f_buf f)))
           (f_msgs f) (f_slots f) (f_last f) (f_upds f) (f_keys f)
           (f_count f) (f_skip f) (length (expired fl l) + f_expired f)).

Lemma try_skip_cases fl a f : skipped_as fl a f (try_skip fl a f).
Proof.
  unfold try_skip. destruct (can_skip fl); [|constructor].
  destruct (mget a (b_msgs (f_buf f))) as [l|] eqn:E; [|constructor].
  fold (keep fl). rewrite <- expired_len. now constructor.
Qed.
