(** The limiter of downloads: no more than the permitted number of them, no permit lost. *)
From Coq Require Import List Bool NArith Lia ZArith ZifyN ZifyNat ZifyBool.
From Verif Require Import LimModel.
Import ListNotations.
Local Open Scope N_scope.

Definition len (l : list task) : N := N.of_nat (length l).
Fixpoint sum (g : sem -> N) (l : list sem) : N := match l with [] => 0 | x :: r => g x + sum g r end.
(** permits that a semaphore has given out or keeps *)
Definition given (x : sem) : N := s_stored x + len (s_granted x).
(** [inflight] of the entry of this very semaphore *)
Definition infl (m : list (rnd * (N * N))) (x : sem) : N :=
  match lookup (s_round x) m with Some (id, k) => if id =? s_id x then k else 0 | None => 0 end.
(** calls that wait without a permit of their own or that were cancelled while waiting *)
Definition asking (x : sem) : N := len (s_reg x) + len (s_queue x) + len (s_dropped x).

Record linv (p : N) (n : lim) : Prop := {
  v_ids : NoDup (map s_id (n_sems n));
  v_next : forall id x, find_sem id (n_sems n) = Some x -> id < n_next n;
  v_keys : NoDup (map fst (n_map n));
  v_map : forall r id k, lookup r (n_map n) = Some (id, k) -> 1 <= k /\ exists x, find_sem id (n_sems n) = Some x /\ s_round x = r;
  v_bal : forall id x, find_sem id (n_sems n) = Some x -> s_stored x + infl (n_map n) x = asking x;
  v_queue : forall id x, find_sem id (n_sems n) = Some x -> s_queue x <> [] -> s_stored x = 0;
  v_total : n_permits n + len (n_hold n) + sum given (n_sems n) = p;
  v_free : 0 < n_permits n -> n_map n = [] }.

(** ** Lists *)

Lemma len_app l t : len (l ++ [t]) = len l + 1.
Proof. unfold len. rewrite app_length. cbn [length]. lia. Qed.
Lemma len_cons l t : len (t :: l) = len l + 1.
Proof. unfold len. cbn [length]. lia. Qed.
Lemma len_remove t l : has t l = true -> len (remove1 t l) + 1 = len l.
Proof.
  unfold has, len. induction l as [|x l IH]; cbn [existsb remove1]; [discriminate|].
  rewrite N.eqb_sym. destruct (N.eqb_spec x t) as [E|E]; cbn [orb length]; [lia|]. intros H. specialize (IH H). lia.
Qed.
Lemma has_In t l : has t l = true <-> In t l.
Proof. unfold has. rewrite existsb_exists. split; [intros (x & H & E); apply N.eqb_eq in E; subst; exact H|intros H; exists t; split; [exact H|apply N.eqb_refl]]. Qed.

Lemma find_id id l x : find_sem id l = Some x -> s_id x = id.
Proof. induction l as [|y l IH]; cbn [find_sem]; [discriminate|]. destruct (N.eqb_spec (s_id y) id) as [E|E]; [intros [= <-]; exact E|exact IH]. Qed.
Lemma find_In id l x : find_sem id l = Some x -> In x l.
Proof. induction l as [|y l IH]; cbn [find_sem]; [discriminate|]. destruct (N.eqb_spec (s_id y) id) as [E|E]; [intros [= <-]; left; reflexivity|intros H; right; auto]. Qed.
Lemma In_find l x : NoDup (map s_id l) -> In x l -> find_sem (s_id x) l = Some x.
Proof.
  induction l as [|y l IH]; [intros _ []|]; intros N [H|H]; cbn [find_sem map] in *; inversion N as [|? ? N1 N2]; subst.
  - rewrite N.eqb_refl. reflexivity.
  - destruct (N.eqb_spec (s_id y) (s_id x)) as [E|E]; [|auto]. exfalso. apply N1. rewrite E. apply in_map. exact H.
Qed.
Lemma find_upd id f l j : (forall x, s_id (f x) = s_id x) ->
  find_sem j (upd_sem id f l) = if j =? id then option_map f (find_sem j l) else find_sem j l.
Proof.
  intros F. induction l as [|y l IH]; cbn [upd_sem find_sem option_map]; [destruct (j =? id); reflexivity|].
  destruct (N.eqb_spec (s_id y) id) as [E|E]; cbn [find_sem].
  - rewrite F. destruct (N.eqb_spec j id) as [D|D].
    + subst j. rewrite (proj2 (N.eqb_eq _ _) E). reflexivity.
    + destruct (N.eqb_spec (s_id y) j); [congruence|reflexivity].
  - rewrite IH. destruct (N.eqb_spec (s_id y) j) as [D|D]; [|reflexivity]. destruct (N.eqb_spec j id); [congruence|reflexivity].
Qed.
Lemma ids_upd id f l : (forall x, s_id (f x) = s_id x) -> map s_id (upd_sem id f l) = map s_id l.
Proof. intros F. induction l as [|y l IH]; cbn [upd_sem map]; [reflexivity|]. destruct (s_id y =? id); cbn [map]; rewrite ?F, ?IH; reflexivity. Qed.
Lemma sum_upd g id f l x : find_sem id l = Some x -> sum g (upd_sem id f l) + g x = sum g l + g (f x).
Proof.
  induction l as [|y l IH]; cbn [find_sem upd_sem sum]; [discriminate|]. destruct (s_id y =? id); cbn [sum].
  - intros [= <-]. lia.
  - intros H. specialize (IH H). lia.
Qed.
Lemma find_snoc id l x : find_sem id (l ++ [x]) = match find_sem id l with Some y => Some y | None => if s_id x =? id then Some x else None end.
Proof. induction l as [|y l IH]; cbn [app find_sem]; [reflexivity|]. destruct (s_id y =? id); [reflexivity|exact IH]. Qed.
Lemma sum_snoc g l x : sum g (l ++ [x]) = sum g l + g x.
Proof. induction l as [|y l IH]; cbn [app sum]; lia. Qed.

Lemma lookup_put r w m q : lookup q (put r w m) = if q =? r then Some w else lookup q m.
Proof.
  induction m as [|(a, b) m IH]; cbn [put lookup].
  - rewrite N.eqb_sym. reflexivity.
  - destruct (N.eqb_spec a r) as [E|E]; cbn [lookup].
    + subst a. rewrite N.eqb_sym. destruct (N.eqb_spec q r); reflexivity.
    + rewrite IH. destruct (N.eqb_spec a q) as [D|D]; [|reflexivity]. destruct (N.eqb_spec q r); [congruence|reflexivity].
Qed.
Lemma lookup_key r m : ~ In r (map fst m) <-> lookup r m = None.
Proof.
  induction m as [|(a, b) m IH]; cbn [map fst lookup In]; [tauto|]. destruct (N.eqb_spec a r) as [E|E].
  - subst a. split; [intros H; exfalso; apply H; auto|discriminate].
  - rewrite <- IH. split; [tauto|]. intros H [Q|Q]; [contradiction|exact (H Q)].
Qed.
Lemma lookup_unput r m q : NoDup (map fst m) -> lookup q (unput r m) = if q =? r then None else lookup q m.
Proof.
  induction m as [|(a, b) m IH]; cbn [unput lookup map fst]; intros N; [destruct (q =? r); reflexivity|].
  inversion N as [|? ? N1 N2]; subst. destruct (N.eqb_spec a r) as [E|E]; cbn [lookup].
  - subst a. destruct (N.eqb_spec q r) as [D|D]; [subst q; apply lookup_key; exact N1|]. destruct (N.eqb_spec r q); [congruence|reflexivity].
  - rewrite (IH N2). destruct (N.eqb_spec a q) as [D|D]; [|reflexivity]. destruct (N.eqb_spec q r); [congruence|reflexivity].
Qed.
Lemma keys_put r w m q : In q (map fst (put r w m)) <-> q = r \/ In q (map fst m).
Proof.
  induction m as [|(a, b) m IH]; cbn [put map fst In]; [split; [intros [H|[]]; auto|intros [H|[]]; auto]|].
  destruct (N.eqb_spec a r) as [E|E]; cbn [map fst In]; [subst a; split; [tauto|]; intros [H|H]; auto|]. rewrite IH. tauto.
Qed.
Lemma nd_put r w m : NoDup (map fst m) -> NoDup (map fst (put r w m)).
Proof.
  induction m as [|(a, b) m IH]; cbn [put map fst]; intros N; [repeat constructor; intros []|]. inversion N as [|? ? N1 N2]; subst.
  destruct (N.eqb_spec a r) as [E|E]; cbn [map fst]; [subst a; exact N|]. constructor; [|auto]. rewrite keys_put. intros [H|H]; [congruence|contradiction].
Qed.
Lemma nd_unput r m : NoDup (map fst m) -> NoDup (map fst (unput r m)).
Proof.
  induction m as [|(a, b) m IH]; cbn [unput map fst]; intros N; [exact N|]. inversion N as [|? ? N1 N2]; subst.
  destruct (N.eqb_spec a r) as [E|E]; [exact N2|]. cbn [map fst]. constructor; [|auto]. intros H. apply N1. clear - H.
  induction m as [|(c, d) m IHm]; cbn [unput map fst In] in *; [exact H|]. destruct (c =? r); [auto|]. cbn [map fst In] in H. tauto.
Qed.
Lemma last_none m : last_entry m = None -> m = [].
Proof. destruct m as [|e m]; [reflexivity|]. cbn [last_entry]. destruct (last_entry m) as [x|]; [destruct (_ <? _)|]; discriminate. Qed.
Lemma last_some m e : last_entry m = Some e -> In e m /\ forall x, In x m -> fst x <= fst e.
Proof.
  revert e. induction m as [|a m IH]; cbn [last_entry]; [discriminate|]. intros e. destruct (last_entry m) as [x|] eqn:L.
  - destruct (IH x eq_refl) as [I M]. destruct (N.ltb_spec (fst a) (fst x)) as [C|C]; intros [= <-].
    + split; [right; exact I|]. intros y [<-|Y]; [lia|auto].
    + split; [left; reflexivity|]. intros y [<-|Y]; [lia|]. specialize (M y Y). lia.
  - apply last_none in L. subst m. intros [= <-]. split; [left; reflexivity|]. intros y [<-|[]]. lia.
Qed.
Lemma In_lookup r w m : NoDup (map fst m) -> In (r, w) m -> lookup r m = Some w.
Proof.
  induction m as [|(a, b) m IH]; [intros _ []|]; intros N [H|H]; cbn [lookup map fst] in *; inversion N as [|? ? N1 N2]; subst.
  - injection H as -> ->. rewrite N.eqb_refl. reflexivity.
  - destruct (N.eqb_spec a r) as [E|E]; [|auto]. subst a. exfalso. apply N1. apply (in_map fst) in H. exact H.
Qed.
Lemma lookup_In r w m : lookup r m = Some w -> In (r, w) m.
Proof. induction m as [|(a, b) m IH]; cbn [lookup]; [discriminate|]. destruct (N.eqb_spec a r) as [E|E]; [subst a; intros [= <-]; left; reflexivity|right; auto]. Qed.

(** ** One permit moves *)

(** what is needed of an update of one semaphore *)
Definition same_name (f : sem -> sem) : Prop := (forall x, s_id (f x) = s_id x) /\ (forall x, s_round (f x) = s_round x).

Lemma infl_name m f x : same_name f -> infl m (f x) = infl m x.
Proof. intros [F1 F2]. unfold infl. rewrite F1, F2. reflexivity. Qed.

(** Changing a semaphore without the map. *)
Lemma linv_upd p p' n id f x h :
  linv p n -> same_name f -> find_sem id (n_sems n) = Some x ->
  (s_stored (f x) + asking x = s_stored x + asking (f x)) -> (s_queue (f x) <> [] -> s_stored (f x) = 0) ->
  len h + given (f x) + p = len (n_hold n) + given x + p' ->
  linv p' (Lim (n_permits n) (n_map n) (upd_sem id f (n_sems n)) h (n_next n)).
Proof.
  intros [V1 V2 V3 V4 V5 V6 V7 V8] F FX B Q T. pose proof F as [F1 F2].
  assert (FU : forall j y, find_sem j (upd_sem id f (n_sems n)) = Some y -> (j = id /\ y = f x) \/ (j <> id /\ find_sem j (n_sems n) = Some y)).
  { intros j y. rewrite (find_upd _ _ _ _ F1). destruct (N.eqb_spec j id) as [D|D]; [|auto]. subst j. rewrite FX. cbn [option_map]. intros [= <-]. auto. }
  constructor; cbn [n_permits n_map n_sems n_hold n_next]; auto.
  - rewrite (ids_upd _ _ _ F1). exact V1.
  - intros j y H. destruct (FU j y H) as [(-> & ->)|(D & H')]; eauto.
  - intros r j k H. destruct (V4 r j k H) as (K & y & Y & R). split; [exact K|]. rewrite (find_upd _ _ _ _ F1). destruct (N.eqb_spec j id) as [D|D]; [|eauto].
    subst j. rewrite FX in Y. injection Y as <-. rewrite FX. cbn [option_map]. exists (f x). rewrite F2. auto.
  - intros j y H. destruct (FU j y H) as [(-> & ->)|(D & H')]; [|eauto]. rewrite (infl_name _ _ _ F). pose proof (V5 id x FX). lia.
  - intros j y H. destruct (FU j y H) as [(-> & ->)|(D & H')]; [exact Q|eauto].
  - pose proof (sum_upd given id f (n_sems n) x FX). lia.
Qed.

Lemma add_permit_name : same_name add_permit.
Proof. split; intros x; unfold add_permit; destruct (s_queue x); reflexivity. Qed.
Lemma add_permit_given x : given (add_permit x) = given x + 1.
Proof. unfold add_permit, given. destruct (s_queue x); cbn [s_stored s_granted]; rewrite ?len_app; lia. Qed.
Lemma add_permit_bal x : s_stored (add_permit x) + asking x = s_stored x + asking (add_permit x) + 1.
Proof. unfold add_permit, asking. destruct (s_queue x) eqn:Q; cbn [s_stored s_reg s_queue s_dropped]; rewrite ?len_cons; unfold len; cbn [length]; lia. Qed.
Lemma add_permit_queue x : (s_queue x <> [] -> s_stored x = 0) -> s_queue (add_permit x) <> [] -> s_stored (add_permit x) = 0.
Proof. unfold add_permit. destruct (s_queue x) eqn:Q; cbn [s_stored s_queue]; [congruence|]. intros H _. apply H. discriminate. Qed.

Lemma dec_ok n r id k : lookup r (n_map n) = Some (id, k) -> 1 <= k -> NoDup (map fst (n_map n)) ->
  exists m, dec_inflight n r id k = Some (with_map n m) /\ NoDup (map fst m) /\
    forall q, lookup q m = if q =? r then (if k =? 1 then None else Some (id, k - 1)) else lookup q (n_map n).
Proof.
  intros L K N. unfold dec_inflight. destruct (N.eqb_spec k 0) as [E|E]; [lia|]. destruct (N.eqb_spec k 1) as [E1|E1].
  - eexists. split; [reflexivity|]. split; [apply nd_unput; exact N|]. intros q. apply lookup_unput. exact N.
  - eexists. split; [reflexivity|]. split; [apply nd_put; exact N|]. intros q. apply lookup_put.
Qed.

(** A free permit is granted to the semaphore of a round. *)
Lemma credit_ok p n r id k : linv p n -> lookup r (n_map n) = Some (id, k) ->
  exists n', dec_inflight (with_sems n (upd_sem id add_permit (n_sems n))) r id k = Some n' /\ linv (p + 1) n' /\
    n_sems n' = upd_sem id add_permit (n_sems n) /\ n_hold n' = n_hold n.
Proof.
  intros [V1 V2 V3 V4 V5 V6 V7 V8] L. destruct (V4 r id k L) as (K & x & FX & RX). pose proof (find_id _ _ _ FX) as IX.
  destruct (dec_ok (with_sems n (upd_sem id add_permit (n_sems n))) r id k L K V3) as (m & E & NM & LM). cbn [with_sems n_map] in LM.
  rewrite E. eexists. split; [reflexivity|]. split; [|split; reflexivity]. pose proof add_permit_name as F. pose proof F as [F1 F2].
  assert (FU : forall j y, find_sem j (upd_sem id add_permit (n_sems n)) = Some y -> (j = id /\ y = add_permit x) \/ (j <> id /\ find_sem j (n_sems n) = Some y)).
  { intros j y. rewrite (find_upd _ _ _ _ F1). destruct (N.eqb_spec j id) as [D|D]; [|auto]. subst j. rewrite FX. cbn [option_map]. intros [= <-]. auto. }
  assert (IM : forall y, infl m y = if (s_round y =? r) && (s_id y =? id) then k - 1 else infl (n_map n) y).
  { intros y. unfold infl. rewrite LM. destruct (N.eqb_spec (s_round y) r) as [D|D]; cbn [andb]; [|reflexivity].
    rewrite D, L. destruct (N.eqb_spec k 1) as [K1|K1].
    - destruct (N.eqb_spec (s_id y) id) as [D2|D2]; [lia|]. destruct (N.eqb_spec id (s_id y)); [congruence|reflexivity].
    - rewrite (N.eqb_sym id). destruct (N.eqb_spec (s_id y) id); reflexivity. }
  constructor; cbn [with_map with_sems n_permits n_map n_sems n_hold n_next]; auto.
  - rewrite (ids_upd _ _ _ F1). exact V1.
  - intros j y H. destruct (FU j y H) as [(-> & ->)|(D & H')]; eauto.
  - intros q j k' H. rewrite LM in H. assert (EX : exists k0 y, find_sem j (n_sems n) = Some y /\ s_round y = q /\ 1 <= k' /\ 1 <= k0).
    { destruct (N.eqb_spec q r) as [D|D].
      - destruct (N.eqb_spec k 1) as [K1|K1]; [discriminate|]. injection H as <- <-. exists k, x. subst q. repeat split; auto; lia.
      - destruct (V4 q j k' H) as (K' & y & Y & R). exists k', y. auto. }
    destruct EX as (_ & y & Y & R & K' & _). split; [exact K'|]. rewrite (find_upd _ _ _ _ F1). destruct (N.eqb_spec j id) as [D|D]; [|eauto].
    rewrite Y. cbn [option_map]. exists (add_permit y). rewrite F2. auto.
  - intros j y H. rewrite IM. destruct (FU j y H) as [(-> & ->)|(D & H')].
    + rewrite F2, RX, F1, IX, !N.eqb_refl. cbn [andb]. pose proof (V5 id x FX) as B. unfold infl in B. rewrite RX, L, IX, N.eqb_refl in B.
      pose proof (add_permit_bal x). lia.
    + pose proof (find_id _ _ _ H') as IY. rewrite IY. destruct (N.eqb_spec j id); [contradiction|]. rewrite andb_false_r. eauto.
  - intros j y H. destruct (FU j y H) as [(-> & ->)|(D & H')]; [apply add_permit_queue; eauto|eauto].
  - pose proof (sum_upd given id add_permit (n_sems n) x FX) as S. rewrite add_permit_given in S. lia.
  - intros H. exfalso. specialize (V8 H). rewrite V8 in L. discriminate.
Qed.

Lemma exit_ok p n : linv p n -> p < u16_max -> exists n', exit n = Some n' /\ linv (p + 1) n' /\ n_hold n' = n_hold n /\
  match last_entry (n_map n) with
  | Some (r, (id, k)) => n_sems n' = upd_sem id add_permit (n_sems n)
  | None => n_sems n' = n_sems n /\ n_permits n' = n_permits n + 1
  end.
Proof.
  intros I P. pose proof I as [V1 V2 V3 V4 V5 V6 V7 V8]. unfold exit. destruct (last_entry (n_map n)) as [(r & id & k)|] eqn:L.
  - destruct (last_some _ _ L) as [IN _]. pose proof (In_lookup _ _ _ V3 IN) as LK.
    destruct (credit_ok p n r id k I LK) as (n' & E & I' & S & H). exists n'. auto.
  - apply last_none in L. destruct (N.ltb_spec (n_permits n) u16_max) as [C|C]; [|lia].
    eexists. split; [reflexivity|]. split; [|auto]. constructor; cbn [n_permits n_map n_sems n_hold n_next]; auto. lia.
Qed.

Lemma forget_name : same_name (fun x => fst (forget1 x)).
Proof. split; intros x; unfold forget1; destruct (0 <? s_stored x); reflexivity. Qed.

(** The state before [cancel_inflight]: one call of the semaphore [id] is gone. *)
Lemma cancel_ok p n id x t : linv p n -> 1 <= p -> p <= u16_max -> find_sem id (n_sems n) = Some x -> has t (s_dropped x) = true ->
  exists n', step n (ECleanup id t) = Some n' /\ linv p n' /\ n_hold n' = n_hold n.
Proof.
  intros I P1 P2 FX HT. pose proof I as [V1 V2 V3 V4 V5 V6 V7 V8]. pose proof (find_id _ _ _ FX) as IX.
  cbn [step]. rewrite FX. pose proof (len_remove _ _ HT) as LR. pose proof (V5 id x FX) as B.
  set (drop := fun x => Sem (s_id x) (s_round x) (s_stored x) (s_reg x) (s_queue x) (s_granted x) (remove1 t (s_dropped x))).
  assert (DN : same_name drop) by (split; reflexivity).
  set (n1 := with_sems n (upd_sem id drop (n_sems n))).
  assert (FX1 : find_sem id (n_sems n1) = Some (drop x)).
  { unfold n1. cbn [with_sems n_sems]. rewrite (find_upd _ _ _ _ (proj1 DN)), N.eqb_refl, FX. reflexivity. }
  unfold cancel_inflight. rewrite FX1.
  assert (FG : forget_in n1 id = Lim (n_permits n) (n_map n) (upd_sem id (fun y => fst (forget1 (drop y))) (n_sems n)) (n_hold n) (n_next n)).
  { unfold forget_in, n1, with_sems. cbn [n_permits n_map n_sems n_hold n_next]. f_equal. clear. induction (n_sems n) as [|y l IH]; cbn [upd_sem]; [reflexivity|].
    destruct (s_id y =? id) eqn:E; cbn [upd_sem]; [unfold drop at 1; cbn [s_id]; rewrite E; reflexivity|rewrite E, IH; reflexivity]. }
  assert (FD : 1 <= s_stored x -> linv (p - 1) (forget_in n1 id)).
  { intros S. rewrite FG. apply (linv_upd p (p - 1) n id _ x (n_hold n) I); [split; intros y; unfold forget1; destruct (0 <? s_stored (drop y)); reflexivity|exact FX| | |];
      unfold forget1, drop; cbn [s_stored]; destruct (N.ltb_spec 0 (s_stored x)) as [C|C]; try lia; cbn [fst].
    - unfold asking. cbn [s_stored s_reg s_queue s_dropped]. lia.
    - cbn [s_queue s_stored]. intros Q. specialize (V6 id x FX Q). lia.
    - unfold given. cbn [s_stored s_granted]. lia. }
  assert (FO : snd (forget1 (drop x)) = if 0 <? s_stored x then 1 else 0) by (unfold forget1, drop; cbn [s_stored]; destruct (0 <? s_stored x); reflexivity).
  rewrite FO. cbn [n1 with_sems n_map]. change (n_map n1) with (n_map n).
  assert (EXIT : 1 <= s_stored x -> exists n', exit (forget_in n1 id) = Some n' /\ linv p n' /\ n_hold n' = n_hold n).
  { intros S. destruct (exit_ok (p - 1) (forget_in n1 id) (FD S) ltac:(lia)) as (n' & E & I' & H & _). exists n'. split; [exact E|]. split; [replace p with (p - 1 + 1) by lia; exact I'|].
    rewrite H, FG. reflexivity. }
  destruct (lookup (s_round x) (n_map n)) as [(wid & k)|] eqn:L.
  - destruct (N.eqb_spec wid id) as [W|W].
    + subst wid. destruct (N.ltb_spec 0 (s_stored x)) as [C|C]; cbn [N.eqb]; [apply EXIT; lia|].
      (* the call gives up its place *)
      destruct (V4 _ _ _ L) as (K & _). destruct (dec_ok n1 (s_round x) id k L K V3) as (m & E & NM & LM). change (n_map n1) with (n_map n) in LM.
      change (0 =? 1) with false. cbv iota. rewrite E. eexists. split; [reflexivity|]. split; [|reflexivity].
      assert (FU : forall j y, find_sem j (n_sems n1) = Some y -> (j = id /\ y = drop x) \/ (j <> id /\ find_sem j (n_sems n) = Some y)).
      { intros j y. unfold n1. cbn [with_sems n_sems]. rewrite (find_upd _ _ _ _ (proj1 DN)). destruct (N.eqb_spec j id) as [D|D]; [|auto]. subst j. rewrite FX. cbn [option_map]. intros [= <-]. auto. }
      assert (IM : forall y, infl m y = if (s_round y =? s_round x) && (s_id y =? id) then k - 1 else infl (n_map n) y).
      { intros y. unfold infl. rewrite LM. destruct (N.eqb_spec (s_round y) (s_round x)) as [D|D]; cbn [andb]; [|reflexivity].
        rewrite D, L. destruct (N.eqb_spec k 1) as [K1|K1].
        - destruct (N.eqb_spec (s_id y) id) as [D2|D2]; [lia|]. destruct (N.eqb_spec id (s_id y)); [congruence|reflexivity].
        - rewrite (N.eqb_sym id). destruct (N.eqb_spec (s_id y) id); reflexivity. }
      constructor; cbn [with_map n_permits n_map n_sems n_hold n_next]; auto.
      * unfold n1. cbn [with_sems n_sems]. rewrite (ids_upd _ _ _ (proj1 DN)). exact V1.
      * intros j y H. destruct (FU j y H) as [(-> & ->)|(D & H')]; eauto.
      * intros q j k' H. rewrite LM in H. assert (EX : exists y, find_sem j (n_sems n) = Some y /\ s_round y = q /\ 1 <= k').
        { destruct (N.eqb_spec q (s_round x)) as [D|D].
          - destruct (N.eqb_spec k 1) as [K1|K1]; [discriminate|]. injection H as <- <-. exists x. subst q. repeat split; auto; lia.
          - destruct (V4 q j k' H) as (K' & y & Y & R). exists y. auto. }
        destruct EX as (y & Y & R & K'). split; [exact K'|]. unfold n1. cbn [with_sems n_sems]. rewrite (find_upd _ _ _ _ (proj1 DN)). destruct (N.eqb_spec j id) as [D|D]; [|eauto].
        rewrite Y. cbn [option_map]. exists (drop y). split; [reflexivity|exact R].
      * intros j y H. rewrite IM. destruct (FU j y H) as [(-> & ->)|(D & H')].
        -- unfold drop at 2 3. cbn [s_round s_id]. rewrite IX, !N.eqb_refl. cbn [andb]. unfold infl in B. rewrite L, IX, N.eqb_refl in B.
           unfold asking, drop in *. cbn [s_stored s_reg s_queue s_dropped]. lia.
        -- pose proof (find_id _ _ _ H') as IY. rewrite IY. destruct (N.eqb_spec j id); [contradiction|]. rewrite andb_false_r. eauto.
      * intros j y H. destruct (FU j y H) as [(-> & ->)|(D & H')]; [exact (V6 id x FX)|eauto].
      * pose proof (sum_upd given id drop (n_sems n) x FX) as S. unfold n1. cbn [with_sems n_sems]. change (given (drop x)) with (given x) in S.
        cbn [with_sems n_permits n_hold]. lia.
      * intros H. exfalso. change (n_permits n1) with (n_permits n) in H. rewrite (V8 H) in L. discriminate.
    + assert (S : 1 <= s_stored x).
      { unfold infl in B. rewrite L, IX, (proj2 (N.eqb_neq _ _) W) in B. unfold asking in B. lia. }
      destruct (N.ltb_spec 0 (s_stored x)) as [C|C]; [|lia]. cbn [N.eqb]. change (1 =? 1) with true. cbv iota.
      destruct (credit_ok (p - 1) (forget_in n1 id) (s_round x) wid k (FD S)) as (n' & E & I' & _ & H).
      { rewrite FG. exact L. }
      exists n'. split; [exact E|]. split; [replace p with (p - 1 + 1) by lia; exact I'|]. rewrite H, FG. reflexivity.
  - assert (S : 1 <= s_stored x) by (unfold infl in B; rewrite L in B; unfold asking in B; lia).
    destruct (N.ltb_spec 0 (s_stored x)) as [C|C]; [|lia]. change (1 =? 1) with true. cbv iota. apply EXIT. exact S.
Qed.

Lemma enter_ok p n r : linv p n -> linv p (enter n r).
Proof.
  intros I. pose proof I as [V1 V2 V3 V4 V5 V6 V7 V8]. unfold enter. destruct (N.ltb_spec 0 (n_permits n)) as [C|C].
  - constructor; cbn [n_permits n_map n_sems n_hold n_next]; auto.
    + intros id x H. specialize (V2 id x H). lia.
    + rewrite len_cons. lia.
  - destruct (lookup r (n_map n)) as [(id & k)|] eqn:L.
    + destruct (V4 r id k L) as (K & x & FX & RX). pose proof (find_id _ _ _ FX) as IX.
      set (f := fun x => Sem (s_id x) (s_round x) (s_stored x) (s_reg x ++ [n_next n]) (s_queue x) (s_granted x) (s_dropped x)).
      assert (F : same_name f) by (split; reflexivity).
      assert (FU : forall j y, find_sem j (upd_sem id f (n_sems n)) = Some y -> (j = id /\ y = f x) \/ (j <> id /\ find_sem j (n_sems n) = Some y)).
      { intros j y. rewrite (find_upd _ _ _ _ (proj1 F)). destruct (N.eqb_spec j id) as [D|D]; [|auto]. subst j. rewrite FX. cbn [option_map]. intros [= <-]. auto. }
      assert (IM : forall y, infl (put r (id, k + 1) (n_map n)) y = if (s_round y =? r) && (s_id y =? id) then k + 1 else infl (n_map n) y).
      { intros y. unfold infl. rewrite lookup_put. destruct (N.eqb_spec (s_round y) r) as [D|D]; cbn [andb]; [|reflexivity].
        rewrite D, L, (N.eqb_sym id). destruct (N.eqb_spec (s_id y) id); reflexivity. }
      constructor; cbn [n_permits n_map n_sems n_hold n_next].
      * rewrite (ids_upd _ _ _ (proj1 F)). exact V1.
      * intros j y H. destruct (FU j y H) as [(-> & ->)|(D & H')]; [specialize (V2 id x FX)|specialize (V2 j y H')]; lia.
      * apply nd_put. exact V3.
      * intros q j k' H. rewrite lookup_put in H. assert (EX : exists y, find_sem j (n_sems n) = Some y /\ s_round y = q /\ 1 <= k').
        { destruct (N.eqb_spec q r) as [D|D]; [injection H as <- <-; subst q; exists x; repeat split; auto; lia|].
          destruct (V4 q j k' H) as (K' & y & Y & R). exists y. auto. }
        destruct EX as (y & Y & R & K'). split; [exact K'|]. rewrite (find_upd _ _ _ _ (proj1 F)). destruct (N.eqb_spec j id) as [D|D]; [|eauto].
        rewrite Y. cbn [option_map]. exists (f y). split; [reflexivity|exact R].
      * intros j y H. rewrite IM. destruct (FU j y H) as [(-> & ->)|(D & H')].
        -- unfold f at 2 3. cbn [s_round s_id]. rewrite RX, IX, !N.eqb_refl. cbn [andb]. pose proof (V5 id x FX) as B. unfold infl in B. rewrite RX, L, IX, N.eqb_refl in B.
           unfold asking, f in *. cbn [s_stored s_reg s_queue s_dropped]. rewrite len_app. lia.
        -- pose proof (find_id _ _ _ H') as IY. rewrite IY. destruct (N.eqb_spec j id); [contradiction|]. rewrite andb_false_r. eauto.
      * intros j y H. destruct (FU j y H) as [(-> & ->)|(D & H')]; [exact (V6 id x FX)|eauto].
      * pose proof (sum_upd given id f (n_sems n) x FX) as S. change (given (f x)) with (given x) in S. lia.
      * lia.
    + assert (NF : find_sem (n_next n) (n_sems n) = None).
      { destruct (find_sem (n_next n) (n_sems n)) as [x|] eqn:E; [|reflexivity]. specialize (V2 _ _ E). lia. }
      set (x0 := Sem (n_next n) r 0 [n_next n] [] [] []).
      assert (FU : forall j y, find_sem j (n_sems n ++ [x0]) = Some y -> (j = n_next n /\ y = x0) \/ (j <> n_next n /\ find_sem j (n_sems n) = Some y)).
      { intros j y. rewrite find_snoc. cbn [x0 s_id]. destruct (find_sem j (n_sems n)) as [z|] eqn:E.
        - intros [= <-]. right. split; [intros ->; congruence|reflexivity].
        - destruct (N.eqb_spec (n_next n) j) as [D|D]; [intros [= <-]; auto|discriminate]. }
      assert (IM : forall j y, find_sem j (n_sems n) = Some y -> infl (put r (n_next n, 1) (n_map n)) y = infl (n_map n) y).
      { intros j y H. pose proof (find_id _ _ _ H) as IY. specialize (V2 _ _ H). unfold infl. rewrite lookup_put. destruct (N.eqb_spec (s_round y) r) as [D|D]; [|reflexivity].
        rewrite D, L. destruct (N.eqb_spec (n_next n) (s_id y)); [lia|reflexivity]. }
      constructor; cbn [n_permits n_map n_sems n_hold n_next].
      * rewrite map_app. cbn [map x0 s_id]. apply (NoDup_Add (a := n_next n) (l := map s_id (n_sems n))).
        { replace (map s_id (n_sems n)) with (map s_id (n_sems n) ++ []) at 1 by apply app_nil_r. apply Add_app. }
        split; [exact V1|]. intros H. apply in_map_iff in H as (y & E & H).
        pose proof (In_find _ _ V1 H) as FY. rewrite E in FY. congruence.
      * intros j y H. destruct (FU j y H) as [(-> & ->)|(D & H')]; [lia|]. specialize (V2 j y H'). lia.
      * apply nd_put. exact V3.
      * intros q j k' H. rewrite lookup_put in H. destruct (N.eqb_spec q r) as [D|D].
        -- injection H as <- <-. split; [lia|]. exists x0. rewrite find_snoc, NF. cbn [x0 s_id]. rewrite N.eqb_refl. subst q. auto.
        -- destruct (V4 q j k' H) as (K' & y & Y & R). split; [exact K'|]. exists y. rewrite find_snoc, Y. auto.
      * intros j y H. destruct (FU j y H) as [(-> & ->)|(D & H')]; [|rewrite (IM j y H'); eauto].
        unfold infl. cbn [x0 s_round s_id]. rewrite lookup_put, !N.eqb_refl. unfold asking. cbn [x0 s_stored s_reg s_queue s_dropped]. unfold len. cbn [length]. lia.
      * intros j y H. destruct (FU j y H) as [(-> & ->)|(D & H')]; [reflexivity|eauto].
      * rewrite sum_snoc. unfold given at 2. cbn [x0 s_stored s_granted]. unfold len at 2. cbn [length]. lia.
      * lia.
Qed.

Theorem step_linv p n e : 1 <= p -> p <= u16_max -> linv p n -> enabled n e = true -> exists n', step n e = Some n' /\ linv p n'.
Proof.
  intros P1 P2 I EN. pose proof I as [V1 V2 V3 V4 V5 V6 V7 V8]. destruct e as [r|id t|id t|id t|id t|t]; cbn [enabled] in EN.
  - eexists. split; [reflexivity|]. apply enter_ok. exact I.
  - cbn [step]. destruct (find_sem id (n_sems n)) as [x|] eqn:FX; [|discriminate]. pose proof (len_remove _ _ EN) as LR.
    destruct (N.ltb_spec 0 (s_stored x)) as [C|C]; (eexists; split; [reflexivity|]).
    + apply (linv_upd p p n id _ x _ I); [split; reflexivity|exact FX| | |]; unfold asking, given; cbn [s_stored s_reg s_queue s_granted s_dropped]; rewrite ?len_cons; try lia.
      intros Q. specialize (V6 id x FX Q). lia.
    + apply (linv_upd p p n id _ x (n_hold n) I); [split; reflexivity|exact FX| | |]; unfold asking, given; cbn [s_stored s_reg s_queue s_granted s_dropped]; rewrite ?len_app; lia.
  - cbn [step]. destruct (find_sem id (n_sems n)) as [x|] eqn:FX; [|discriminate]. pose proof (len_remove _ _ EN) as LR.
    eexists. split; [reflexivity|].
    apply (linv_upd p p n id _ x _ I); [split; reflexivity|exact FX| | |]; unfold asking, given; cbn [s_stored s_reg s_queue s_granted s_dropped]; rewrite ?len_cons; try lia.
    exact (V6 id x FX).
  - cbn [step]. destruct (find_sem id (n_sems n)) as [x|] eqn:FX; [|discriminate]. destruct (has t (s_granted x)) eqn:G.
    + pose proof (len_remove _ _ G) as LR. eexists. split; [reflexivity|].
      set (g := fun x => Sem (s_id x) (s_round x) (s_stored x) (s_reg x) (s_queue x) (remove1 t (s_granted x)) (s_dropped x ++ [t])).
      apply (linv_upd p p n id (fun x => add_permit (g x)) x (n_hold n) I).
      * destruct add_permit_name as [A1 A2]. split; intros y; [rewrite A1|rewrite A2]; reflexivity.
      * exact FX.
      * pose proof (add_permit_bal (g x)) as Q. change (s_stored (g x)) with (s_stored x) in Q. unfold asking in *. cbn [g s_reg s_queue s_dropped] in Q. rewrite len_app in Q. lia.
      * apply (add_permit_queue (g x)). exact (V6 id x FX).
      * rewrite add_permit_given. unfold given. cbn [g s_stored s_granted]. lia.
    + rewrite orb_false_r in EN. destruct (has t (s_queue x)) eqn:GQ.
      * pose proof (len_remove _ _ GQ) as LR. eexists. split; [reflexivity|].
        apply (linv_upd p p n id _ x (n_hold n) I); [split; reflexivity|exact FX| | |]; unfold asking, given; cbn [s_stored s_reg s_queue s_granted s_dropped]; rewrite ?len_app; try lia.
        intros Q. apply (V6 id x FX). intros Z. rewrite Z in Q. cbn [remove1] in Q. contradiction.
      * rewrite orb_false_r in EN. pose proof (len_remove _ _ EN) as LR. eexists. split; [reflexivity|].
        apply (linv_upd p p n id _ x (n_hold n) I); [split; reflexivity|exact FX| | |]; unfold asking, given; cbn [s_stored s_reg s_queue s_granted s_dropped]; rewrite ?len_app; try lia.
        exact (V6 id x FX).
  - destruct (find_sem id (n_sems n)) as [x|] eqn:FX; [|discriminate]. destruct (cancel_ok p n id x t I P1 P2 FX EN) as (n' & E & I' & _). eauto.
  - cbn [step]. pose proof (len_remove _ _ EN) as LR.
    destruct (exit_ok (p - 1) (Lim (n_permits n) (n_map n) (n_sems n) (remove1 t (n_hold n)) (n_next n))) as (n' & E & I' & _).
    + constructor; cbn [n_permits n_map n_sems n_hold n_next]; auto. lia.
    + lia.
    + exists n'. split; [exact E|]. replace p with (p - 1 + 1) by lia. exact I'.
Qed.

Lemma new_linv p : linv p (lim_new p).
Proof. constructor; cbn; try constructor; try discriminate; auto. lia. Qed.
Lemma runs_linv p l n : 1 <= p -> p <= u16_max -> runs p l n -> linv p n.
Proof.
  intros P1 P2 R. induction R as [|l n e n' R IH EN ST]; [apply new_linv|].
  destruct (step_linv p n e P1 P2 IH EN) as (x & E & I). congruence.
Qed.
