(** * Block proofs: model of the acceptance of masterchain blocks.
    /repo/block-util/src/block/block_proof_stuff.rs and
    ProofChecker in /repo/core/src/block_strider/provider/mod.rs:487-660. *)
From Coq Require Import List NArith ZArith Bool Lia.
Import ListNotations.
Open Scope N_scope.

Definition u64max : N := 18446744073709551615.
Definition cadd64 (a b : N) : option N := if a + b <=? u64max then Some (a + b) else None.
Definition cmul64 (a b : N) : option N := if a * b <=? u64max then Some (a * b) else None.

(** tycho_types BlockId: shard (workchain, prefix), seqno, root and file hash. *)
Record bid : Type := Bid { id_wc : Z; id_pfx : N; id_seq : N; id_root : N; id_file : N }.
Definition bid_mc (b : bid) : bool := (id_wc b =? -1)%Z.
Definition bid_eqb (a b : bid) : bool :=
  (id_wc a =? id_wc b)%Z && (id_pfx a =? id_pfx b) && (id_seq a =? id_seq b) &&
  (id_root a =? id_root b) && (id_file a =? id_file b).

Record vdesc : Type := Vd { vd_key : N; vd_weight : N }.
Record vset : Type := Vset { vs_list : list vdesc; vs_main : nat; vs_extra : N }.

(** The parts of a block that the checks read. *)
Record binfo : Type := Bi {
  bi_version : N; bi_seqno : N; bi_wc : Z; bi_pfx : N;
  bi_master_ref : bool;            (* load_master_ref().is_some() *)
  bi_after_merge : bool; bi_before_split : bool; bi_after_split : bool;
  bi_key : bool; bi_prev_key : N;
  bi_create_stats : bool }.        (* gen_software.capabilities has CapCreateStatsEnabled *)

Record bconfig : Type := Bc {
  bc_vset : option vset;           (* config param 34; None: absent or malformed *)
  bc_shuffle : option bool;        (* collation config *)
  bc_rest_ok : bool }.             (* params 28, 32..=38 are well formed *)

(** [bb_extra]: outer None when extra cannot be loaded, inner when there is no
    `custom`, innermost when `custom.config` is absent. *)
Record bbody : Type := Bb { bb_info : binfo; bb_extra : option (option bconfig); bb_diff : N }.

(** A proof. [pf_vroot] is the hash of the virtualized root: the hash of the
    block of which the cell contains a part. The part is described by what can
    be loaded from it. *)
Record bsigs : Type := Bs {
  sg_short : N; sg_catchain : N; sg_consensus : N; sg_vset_round : N;
  sg_count : N; sg_weight : N;
  sg_dict : list (option (N * N)) }. (* raw values of the dict: signer, signature; None: malformed *)

Record bproof : Type := Bpf {
  pf_id : bid; pf_vroot : N;
  pf_has_info : bool; pf_has_flow : bool; pf_has_extra : bool;
  pf_sigs : option bsigs }.

Record mstate : Type := Ms {
  ms_id : bid;
  ms_config : option bconfig;      (* load_custom() *)
  ms_consensus : N }.

Section Model.
(** The block with a given hash: hashes bind content (SHA-256 and Merkle proofs
    are not modelled). *)
Variable body : N -> bbody.
(** Dict::check_signatures of tycho-types (outside this repository). *)
Variable ext_check : list vdesc -> list (N * N) -> N * N -> option N.
(** ValidatorSet::compute_mc_subset_indexed of tycho-types: subset and short hash. *)
Variable ext_subset : vset -> N -> bool -> option (list vdesc * N).
(** ShardIdent::is_full, can_split *)
Variable sh_full sh_can_split : N -> bool.

(** virtualize_block_root + pre_check_block_proof, :102-116, :151-225. *)
Definition pre_check (p : bproof) : option binfo :=
  let b := pf_id p in
  if negb (bid_mc b || match pf_sigs p with None => true | Some _ => false end) then None else
  if negb (pf_vroot p =? id_root b) then None else
  if negb (pf_has_info p && pf_has_flow p) then None else
  let i := bb_info (body (pf_vroot p)) in
  if negb (bi_version i =? 0) then None else
  if negb (bi_seqno i =? id_seq b) then None else
  if negb ((bi_wc i =? id_wc b)%Z && (bi_pfx i =? id_pfx b)) then None else
  if negb (Bool.eqb (negb (bi_master_ref i)) (bi_wc i =? -1)%Z) then None else
  if negb (negb (bid_mc b) || (negb (bi_after_merge i) && negb (bi_before_split i) && negb (bi_after_split i))) then None else
  if negb (negb (bi_after_merge i) || negb (bi_after_split i)) then None else
  if negb (negb (bi_after_split i) || negb (sh_full (bi_pfx i))) then None else
  if negb (negb (bi_after_merge i) || sh_can_split (bi_pfx i)) then None else
  if negb (negb (bi_key i) || bid_mc b) then None else
  Some i.

Fixpoint all_some {A} (l : list (option A)) : option (list A) :=
  match l with
  | [] => Some []
  | None :: _ => None
  | Some x :: r => match all_some r with Some r' => Some (x :: r') | None => None end
  end.

(** :261-272. The loop stops after [expected + 1] values, so a malformed value
    behind that is not seen here (it is seen by check_signatures). *)
Fixpoint count_values (expected : N) (count : N) (l : list (option (N * N))) : option N :=
  match l with
  | [] => Some count
  | None :: _ => None
  | Some _ :: r => if expected <? count + 1 then Some (count + 1) else count_values expected (count + 1) r
  end.

(** :277-283 *)
Fixpoint total_weight (acc : N) (l : list vdesc) : option N :=
  match l with
  | [] => Some acc
  | v :: r => match cadd64 acc (vd_weight v) with Some a => total_weight a r | None => None end
  end.

(** check_signatures, :243-313. The signed data is (root hash, file hash):
    Block::build_data_for_sign. *)
Definition check_signatures (p : bproof) (subset : list vdesc * N) : bool :=
  match pf_sigs p with
  | None => false
  | Some s =>
      (sg_short s =? snd subset) &&
      match count_values (sg_count s) 0 (sg_dict s) with
      | None => false
      | Some n =>
          (sg_count s =? n) &&
          match total_weight 0 (fst subset), all_some (sg_dict s) with
          | Some total, Some dict =>
              match ext_check (fst subset) dict (id_root (pf_id p), id_file (pf_id p)) with
              | None => false
              | Some weight =>
                  (weight =? sg_weight s) &&
                  match cmul64 weight 3, cmul64 total 2 with
                  | Some w3, Some t2 => t2 <? w3
                  | _, _ => false
                  end
              end
          | _, _ => false
          end
      end
  end.

(** calc_validators_subset_standard + CatchainSeqnoMode, :398-419, :541-578. *)
Definition calc_subset (p : bproof) (vs : vset) (create_stats shuffle : bool) : option (list vdesc * N) :=
  match pf_sigs p with
  | None => None
  | Some s => ext_subset vs (if create_stats then sg_catchain s else sg_vset_round s) shuffle
  end.

Definition vset_of (c : bconfig) : option (vset * bool) :=
  match bc_vset c, bc_shuffle c with Some v, Some b => Some (v, b) | _, _ => None end.

(** load_extra / load_custom / config of a virtual block *)
Definition config_of (p : bproof) : option bconfig :=
  if pf_has_extra p then
    match bb_extra (body (pf_vroot p)) with Some (Some c) => Some c | _ => None end
  else None.

(** process_prev_key_block_proof, :357-396 *)
Definition subset_from_key (p kp : bproof) (i : binfo) : option (list vdesc * N) :=
  match pre_check kp with
  | None => None
  | Some ki =>
      if negb (bi_key ki) then None else
      match config_of kp with
      | None => None
      | Some c =>
          match vset_of c with
          | None => None
          | Some (v, sh) => calc_subset p v (bi_create_stats i) sh
          end
      end
  end.

(** process_given_state, :315-355 *)
Definition subset_from_state (p : bproof) (st : mstate) (i : binfo) : option (list vdesc * N) :=
  if negb (bid_mc (ms_id st)) then None else
  if negb (bid_mc (pf_id p)) then None else
  if negb (bi_prev_key i <=? id_seq (ms_id st)) then None else
  if negb (id_seq (ms_id st) <? id_seq (pf_id p)) then None else
  match ms_config st with
  | None => None
  | Some c =>
      match vset_of c with
      | None => None
      | Some (v, sh) => calc_subset p v (bi_create_stats i) sh
      end
  end.

(** pre_check_key_block_proof, :510-535 *)
Definition pre_check_key (p : bproof) : bool :=
  match config_of p with
  | Some c => match bc_vset c with Some _ => bc_rest_ok c | None => false end
  | None => false
  end.

(** check_with_prev_key_block_proof, :448-488 *)
Definition check_with_key (p kp : bproof) (i : binfo) : bool :=
  bid_mc (pf_id p) && bid_mc (pf_id kp) &&
  (id_seq (pf_id kp) =? bi_prev_key i) &&
  (id_seq (pf_id kp) <? id_seq (pf_id p)) &&
  match subset_from_key p kp i with
  | None => false
  | Some sub => (negb (bi_key i) || pre_check_key p) && check_signatures p sub
  end.

(** check_with_master_state, :490-504 *)
Definition check_with_state (p : bproof) (st : mstate) (i : binfo) : bool :=
  (if bi_key i then pre_check_key p
   else match pf_sigs p with Some s => sg_consensus s =? ms_consensus st | None => false end) &&
  match subset_from_state p st i with
  | None => false
  | Some sub => check_signatures p sub
  end.

(** ** ProofChecker, provider/mod.rs:502-660 *)
(** The storage as seen by the checker: key blocks by seqno (with the proof
    stored under the id found there) and the zerostate. *)
Record cstore : Type := Cs {
  cs_keys : N -> option bid;
  cs_proof : bid -> option bproof;
  cs_zs_seq : N;
  cs_zs : bid -> option mstate }.

Record checker : Type := Ck {
  ck_zs_seq : option N;            (* None: UNINIT_MC_SEQNO *)
  ck_zs : option mstate;
  ck_key : option bproof }.
Definition checker0 : checker := Ck None None None.

(** check_proof, :520-620. [blk]: id of the block, [diff]: hash of the queue
    diff. Storing on success is left to the caller of the model. *)
Definition check_proof (st : cstore) (k : checker) (blk : bid) (diff : N) (p : bproof) : bool * checker :=
  if negb (bid_eqb blk (pf_id p)) then (false, k) else
  if negb (xorb (bid_mc blk) (negb (bid_mc (pf_id p)))) then (false, k) else
  match pre_check p with
  | None => (false, k)
  | Some i =>
      if negb (bb_diff (body (pf_vroot p)) =? diff) then (false, k) else
      if bid_mc blk then
        match cs_keys st (bi_prev_key i) with
        | None => (false, k)
        | Some kid =>
            let zseq := match ck_zs_seq k with Some n => n | None => cs_zs_seq st end in
            let k1 := Ck (Some zseq) (ck_zs k) (ck_key k) in
            if id_seq kid =? zseq then
              match (match ck_zs k1 with Some z => Some z | None => cs_zs st kid end) with
              | None => (false, k1)
              | Some z => (check_with_state p z i, Ck (ck_zs_seq k1) (Some z) (ck_key k1))
              end
            else
              match (match ck_key k1 with
                     | Some kp => if bid_eqb (pf_id kp) kid then Some kp else cs_proof st kid
                     | None => cs_proof st kid
                     end) with
              | None => (false, k1)
              | Some kp => (check_with_key p kp i, Ck (ck_zs_seq k1) (ck_zs k1) (Some kp))
              end
        end
      else (true, k)
  end.
End Model.
