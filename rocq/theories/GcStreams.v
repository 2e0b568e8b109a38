(** Who may ask and how many streams an address may hold: the users of the limiter.

    Models rpc/src/util/ip.rs, rpc/src/endpoint/rate_limits.rs 70-152 (the whitelist and the limiter of
    streams), network/src/overlay/rate_limits.rs 95-110 (decisions). The map of streams is locked by
    entry for a whole call, so that a call is one step. *)
From Coq Require Import List Bool NArith Lia.
From Coq Require Import ZArith ZifyN ZifyNat ZifyBool.
From Verif Require Import TbBucket GcModel GcBucket GcPeer GcThms.
Import ListNotations.
Local Open Scope N_scope.

(** ** The model *)

Inductive addr := V4 (n : N) | V6 (n : N).
Definition addr_eqb (a b : addr) : bool := match a, b with V4 n, V4 m => n =? m | V6 n, V6 m => n =? m | _, _ => false end.
(** ip.rs 3-11: an IPv6 address loses its low 64 bits *)
Definition normalize_ip (a : addr) : addr := match a with V4 n => V4 n | V6 n => V6 (N.shiftl (N.shiftr n 64) 64) end.

(** rate_limits.rs 28-34, 75-82: the class of a call is asked only when the address is not listed.
    [key_of] is how the address is the key of the limiter *)
Definition rpc_check (lim : class -> traffic) (c : config) (key_of : addr -> key) (whitelist : list addr) (a : addr) (cl : class) (now : N) (x : limiter) : verdict * limiter :=
  let a := normalize_ip a in
  if existsb (addr_eqb a) (map normalize_ip whitelist) then (Allow, x) else check lim c (key_of a) cl now x.

(** network/src/overlay/rate_limits.rs 14-18, 95-110 *)
Inductive decision := DAllow (cl : class) | DBypass | DDrop.
Definition overlay_check (lim : class -> traffic) (c : config) (k : key) (d : decision) (now : N) (x : limiter) : bool * limiter :=
  match d with
  | DAllow cl => let '(v, x) := check lim c k cl now x in (is_allow v, x)
  | DBypass => (true, x)
  | DDrop => (false, x)
  end.

(** rate_limits.rs 94-152: [ActiveStreamLimiter] *)
Inductive guard := Counted (a : addr) | Whitelisted.
Definition active := addr -> option N.
Definition set_active (a : addr) (n : option N) (m : active) : active := fun b => if addr_eqb b a then n else m b.
Definition try_acquire (max : option N) (whitelist : list addr) (a : addr) (m : active) : option guard * active :=
  match max with
  | None => (Some Whitelisted, m)
  | Some max =>
      let a := normalize_ip a in
      if existsb (addr_eqb a) (map normalize_ip whitelist) then (Some Whitelisted, m)
      else let n := match m a with Some n => n | None => 0 end in
           if max <=? n then (None, set_active a (Some n) m) else (Some (Counted a), set_active a (Some (n + 1)) m)
  end.
Definition release (a : addr) (m : active) : active :=
  match m a with Some n => let n := n - 1 in set_active a (if n =? 0 then None else Some n) m | None => m end.
Definition drop_guard (g : guard) (m : active) : active := match g with Counted a => release a m | Whitelisted => m end.

(** what happens: an address asks for a stream, a guard that is held is dropped. [held]: the guards, by
    the number of the call that gave them *)
Inductive op := Ask (a : addr) | Drop (i : N).
Record world := W { w_active : active; w_held : list (N * addr * guard); w_next : N; w_out : list bool }.
Definition world_new : world := W (fun _ => None) [] 0 [].
Fixpoint take (i : N) (h : list (N * addr * guard)) : option (guard * list (N * addr * guard)) :=
  match h with
  | [] => None
  | e :: r => if fst (fst e) =? i then Some (snd e, r) else match take i r with Some (g, r) => Some (g, e :: r) | None => None end
  end.
Definition step (max : option N) (wl : list addr) (w : world) (o : op) : world :=
  match o with
  | Ask a => let '(g, m) := try_acquire max wl a (w_active w) in
             match g with
             | Some g => W m ((w_next w, a, g) :: w_held w) (w_next w + 1) (w_out w ++ [true])
             | None => W m (w_held w) (w_next w) (w_out w ++ [false])
             end
  | Drop i => match take i (w_held w) with
              | Some (g, h) => W (drop_guard g (w_active w)) h (w_next w) (w_out w)
              | None => w
              end
  end.
Definition run (max : option N) (wl : list addr) (l : list op) : world := fold_left (step max wl) l world_new.

(** ** What is said *)

(** the network an address is in *)
Definition same_net (a b : addr) : bool := match a, b with V4 n, V4 m => n =? m | V6 n, V6 m => n / 2 ^ 64 =? m / 2 ^ 64 | _, _ => false end.
Definition listed (wl : list addr) (a : addr) : bool := existsb (same_net a) wl.
(** the streams that the network of [a] holds *)
Definition streams_of (a : addr) (w : world) : N := count (fun e => same_net a (snd (fst e))) (w_held w).

(** ** Basics *)

Lemma addr_eqb_spec a b : reflect (a = b) (addr_eqb a b).
Proof. destruct a as [n|n], b as [m|m]; cbn; try (constructor; congruence); destruct (N.eqb_spec n m); constructor; congruence. Qed.
Lemma norm_same a b : addr_eqb (normalize_ip a) (normalize_ip b) = same_net a b.
Proof.
  destruct a as [n|n], b as [m|m]; cbn [normalize_ip addr_eqb same_net]; try reflexivity. rewrite !N.shiftr_div_pow2, !N.shiftl_mul_pow2.
  change (2 ^ 64) with 18446744073709551616. destruct (N.eqb_spec (n / 18446744073709551616) (m / 18446744073709551616)) as [->|H]; [apply N.eqb_refl|]. apply N.eqb_neq. intros E. apply H. apply N.mul_cancel_r in E; [exact E|discriminate].
Qed.
Lemma norm_idem a : normalize_ip (normalize_ip a) = normalize_ip a.
Proof. destruct a as [n|n]; cbn [normalize_ip]; [reflexivity|]. f_equal. f_equal. rewrite N.shiftr_shiftl_l by lia. apply N.shiftl_0_r. Qed.
Lemma existsb_listed wl a : existsb (addr_eqb (normalize_ip a)) (map normalize_ip wl) = listed wl a.
Proof. unfold listed. induction wl as [|b wl IH]; [reflexivity|]. cbn [map existsb]. rewrite IH, norm_same. reflexivity. Qed.

(** A listed address is always allowed and leaves no trace; for the others it is the limiter that
    decides, with one key for a network. *)
Theorem rpc_check_is lim c key_of wl a cl now x : rpc_check lim c key_of wl a cl now x = if listed wl a then (Allow, x) else check lim c (key_of (normalize_ip a)) cl now x.
Proof. unfold rpc_check. rewrite existsb_listed. reflexivity. Qed.
Theorem one_key_for_a_network a b : normalize_ip a = normalize_ip b <-> same_net a b = true.
Proof. rewrite <- norm_same. split; [intros ->; destruct (addr_eqb_spec (normalize_ip b) (normalize_ip b)); congruence|]. destruct (addr_eqb_spec (normalize_ip a) (normalize_ip b)); congruence. Qed.
Theorem overlay_check_is lim c k d now x : overlay_check lim c k d now x =
  match d with DAllow cl => (is_allow (fst (check lim c k cl now x)), snd (check lim c k cl now x)) | DBypass => (true, x) | DDrop => (false, x) end.
Proof. destruct d; [|reflexivity..]. unfold overlay_check. destruct (check lim c k cl now x). reflexivity. Qed.

(** ** The streams *)

(** the counts are those of the guards that are held *)
Definition hold (a : addr) (h : list (N * addr * guard)) : N := count (fun e => match snd e with Counted b => addr_eqb b a | Whitelisted => false end) h.
Definition guard_ok (max : option N) (wl : list addr) (e : N * addr * guard) : Prop :=
  snd e = match max with None => Whitelisted | Some _ => if listed wl (snd (fst e)) then Whitelisted else Counted (normalize_ip (snd (fst e))) end.
Record inv (max : option N) (wl : list addr) (w : world) : Prop := Inv {
  i_count : forall a, w_active w a = if hold a (w_held w) =? 0 then None else Some (hold a (w_held w));
  i_guards : Forall (guard_ok max wl) (w_held w);
  i_max : forall m a, max = Some m -> hold a (w_held w) <= m
}.
Lemma take_split i h g r : take i h = Some (g, r) -> exists l1 e l2, h = l1 ++ e :: l2 /\ snd e = g /\ fst (fst e) = i /\ r = l1 ++ l2.
Proof.
  revert r. induction h as [|e h IH]; intros r H; cbn [take] in H; [discriminate|]. destruct (N.eqb_spec (fst (fst e)) i) as [E|E].
  - inversion H; subst. exists [], e, r. auto.
  - destruct (take i h) as [[g' r']|]; [|discriminate]. inversion H; subst. destruct (IH r' eq_refl) as (l1 & e' & l2 & -> & A & B & ->). exists (e :: l1), e', l2. auto.
Qed.
Lemma step_inv max wl w o : (forall m, max = Some m -> 0 < m) -> inv max wl w -> inv max wl (step max wl w o).
Proof.
  intros MP [IC IG IM]. destruct o as [a|i]; cbn [step].
  - unfold try_acquire. destruct max as [m|].
    + rewrite existsb_listed. destruct (listed wl a) eqn:L.
      * constructor; cbn [w_active w_held]; [intros b; unfold hold; rewrite count_cons; cbn [snd]; apply IC| |intros m' b E; unfold hold; rewrite count_cons; apply (IM m' b E)].
        constructor; [unfold guard_ok; cbn [fst snd]; rewrite L; reflexivity|exact IG].
      * specialize (MP m eq_refl). assert (NV : match w_active w (normalize_ip a) with Some n => n | None => 0 end = hold (normalize_ip a) (w_held w)) by (rewrite IC; destruct (N.eqb_spec (hold (normalize_ip a) (w_held w)) 0); congruence).
        rewrite NV. destruct (N.leb_spec m (hold (normalize_ip a) (w_held w))) as [F|F].
        -- constructor; cbn [w_active w_held]; [|exact IG|exact IM]. intros b. unfold set_active. destruct (addr_eqb_spec b (normalize_ip a)) as [Eb|_]; [|apply IC]. subst b. rewrite (proj2 (N.eqb_neq _ 0)) by lia. reflexivity.
        -- constructor; cbn [w_active w_held].
           ++ intros b. unfold set_active, hold. rewrite count_cons. cbn [snd]. destruct (addr_eqb_spec b (normalize_ip a)) as [Eb|NE].
              ** subst b. destruct (addr_eqb_spec (normalize_ip a) (normalize_ip a)); [|congruence]. fold (hold (normalize_ip a) (w_held w)). rewrite (proj2 (N.eqb_neq (1 + _) 0)) by lia. f_equal. lia.
              ** destruct (addr_eqb_spec (normalize_ip a) b); [congruence|]. apply IC.
           ++ constructor; [unfold guard_ok; cbn [fst snd]; rewrite L; reflexivity|exact IG].
           ++ intros m' b E. inversion E; subst m'. unfold hold. rewrite count_cons. cbn [snd]. fold (hold b (w_held w)). destruct (addr_eqb_spec (normalize_ip a) b) as [Eb|_]; [subst b; lia|]. apply (IM m b eq_refl).
    + constructor; cbn [w_active w_held]; [intros b; unfold hold; rewrite count_cons; cbn [snd]; apply IC| |intros m' b E; discriminate].
      constructor; [reflexivity|exact IG].
  - destruct (take i (w_held w)) as [[g h]|] eqn:T; [|constructor; assumption]. destruct (take_split _ _ _ _ T) as (l1 & e & l2 & EH & EG & _ & ->). rewrite EH in IC, IG, IM.
    assert (HD : forall b, hold b (l1 ++ e :: l2) = hold b (l1 ++ l2) + match g with Counted a => if addr_eqb a b then 1 else 0 | Whitelisted => 0 end).
    { intros b. unfold hold. rewrite !count_app, count_cons, EG. destruct g as [a|]; [destruct (addr_eqb a b)|]; lia. }
    apply Forall_app in IG. destruct IG as (G1 & G2). inversion G2 as [|? ? G3 G4]; subst. constructor; cbn [w_active w_held]; [|apply Forall_app; auto|].
    + intros b. unfold drop_guard. destruct (snd e) as [a|] eqn:EG.
      * unfold release. pose proof (HD a) as HA. destruct (addr_eqb_spec a a) as [_|]; [|congruence]. rewrite (IC a), (proj2 (N.eqb_neq (hold a (l1 ++ e :: l2)) 0)) by lia.
        replace (hold a (l1 ++ e :: l2) - 1) with (hold a (l1 ++ l2)) by lia. unfold set_active. destruct (addr_eqb_spec b a) as [Eb|NE]; [subst b; reflexivity|].
        rewrite IC, HD. destruct (addr_eqb_spec a b); [congruence|]. rewrite N.add_0_r. reflexivity.
      * rewrite IC, HD, N.add_0_r. reflexivity.
    + intros m a E. specialize (IM m a E). rewrite HD in IM. lia.
Qed.
Lemma run_inv max wl l : (forall m, max = Some m -> 0 < m) -> inv max wl (run max wl l).
Proof.
  intros MP. unfold run. assert (G : forall w, inv max wl w -> inv max wl (fold_left (step max wl) l w)) by (induction l as [|o l IH]; intros w I; cbn [fold_left]; [exact I|]; apply IH; apply step_inv; assumption).
  apply G. constructor; [reflexivity|constructor|intros; cbn; lia].
Qed.
Lemma same_net_trans a b c : same_net a b = true -> same_net b c = same_net a c.
Proof. intros H. apply one_key_for_a_network in H. rewrite <- !norm_same, H. reflexivity. Qed.
Lemma listed_net wl a b : same_net a b = true -> listed wl a = listed wl b.
Proof. intros H. unfold listed. induction wl as [|c wl IH]; [reflexivity|]. cbn [existsb]. rewrite IH, (same_net_trans a b c H). reflexivity. Qed.
Lemma streams_hold m wl w a : inv (Some m) wl w -> listed wl a = false -> streams_of a w = hold (normalize_ip a) (w_held w).
Proof.
  intros [_ IG _] L. unfold streams_of, hold. induction IG as [|e h G IG IH]; [reflexivity|]. rewrite !count_cons, IH. f_equal. unfold guard_ok in G. rewrite G.
  destruct (same_net a (snd (fst e))) eqn:SN.
  - rewrite <- (listed_net wl _ _ SN), L. rewrite <- norm_same in SN. destruct (addr_eqb_spec (normalize_ip a) (normalize_ip (snd (fst e)))) as [Ea|]; [|discriminate]. rewrite Ea. destruct (addr_eqb_spec (normalize_ip (snd (fst e))) (normalize_ip (snd (fst e)))); congruence.
  - destruct (listed wl (snd (fst e))); [reflexivity|]. rewrite <- norm_same in SN. destruct (addr_eqb_spec (normalize_ip (snd (fst e))) (normalize_ip a)) as [Ea|]; [|reflexivity]. rewrite Ea in SN.
    destruct (addr_eqb_spec (normalize_ip a) (normalize_ip a)); congruence.
Qed.

(** No network holds more streams than the limit, unless it is listed. *)
Theorem streams_are_limited m wl l a : 0 < m -> listed wl a = false -> streams_of a (run (Some m) wl l) <= m.
Proof. intros M L. assert (I : inv (Some m) wl (run (Some m) wl l)) by (apply run_inv; intros x E; inversion E; subst; exact M). rewrite (streams_hold m wl _ a I L). apply (i_max _ _ _ I m _ eq_refl). Qed.
(** A stream is refused exactly if the network is not listed and holds the limit already. *)
Theorem refused_exactly_at_the_limit max wl l a : (forall m, max = Some m -> 0 < m) ->
  w_out (run max wl (l ++ [Ask a])) = w_out (run max wl l) ++ [match max with None => true | Some m => listed wl a || (streams_of a (run max wl l) <? m) end].
Proof.
  intros MP. pose proof (run_inv max wl l MP) as I. unfold run in *. rewrite fold_left_app. cbn [fold_left]. set (w := fold_left (step max wl) l world_new) in *. cbn [step]. unfold try_acquire. destruct max as [m|]; [|reflexivity].
  rewrite existsb_listed. destruct (listed wl a) eqn:L; [reflexivity|]. rewrite (streams_hold m wl w a I L). rewrite (i_count _ _ _ I (normalize_ip a)).
  set (n := hold (normalize_ip a) (w_held w)). cbn [orb]. destruct (N.eqb_spec n 0) as [Z|Z].
  - rewrite Z. specialize (MP m eq_refl). rewrite (proj2 (N.leb_gt m 0)) by lia. rewrite (proj2 (N.ltb_lt 0 m)) by lia. reflexivity.
  - destruct (N.leb_spec m n) as [F|F]; [rewrite (proj2 (N.ltb_ge n m)) by lia|rewrite (proj2 (N.ltb_lt n m)) by lia]; reflexivity.
Qed.
(** An entry is kept exactly for the networks that hold streams: nothing is left when all are closed. *)
Theorem entries_are_of_open_streams m wl l a : 0 < m -> listed wl a = false -> (w_active (run (Some m) wl l) (normalize_ip a) = None <-> streams_of a (run (Some m) wl l) = 0).
Proof.
  intros M L. assert (I : inv (Some m) wl (run (Some m) wl l)) by (apply run_inv; intros x E; inversion E; subst; exact M). rewrite (streams_hold m wl _ a I L), (i_count _ _ _ I).
  destruct (N.eqb_spec (hold (normalize_ip a) (w_held (run (Some m) wl l))) 0); split; congruence.
Qed.
Example some_streams : let a := V6 (7 * 2 ^ 64 + 1) in let b := V6 (7 * 2 ^ 64 + 2) in
  w_out (run (Some 2) [V4 9] [Ask a; Ask b; Ask a; Ask (V4 9); Ask (V4 9); Ask (V4 9); Ask (V4 1); Drop 0; Ask b]) = [true; true; false; true; true; true; true; true] /\ streams_of a (run (Some 2) [V4 9] [Ask a; Ask b; Ask a]) = 2.
Proof. vm_compute. auto. Qed.
