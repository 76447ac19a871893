(** Large objects: property C31. *)
From Coq Require Import ZArith Bool List Lia.
From Verif Require Import Base GcModel AllocModel LargeModel LargeProofs.
Import ListNotations.
Open Scope Z_scope.
Open Scope out_scope.

(** After any history of allocations, deaths, sweeps, flips and writes by the program, the
    blocks handed out so far are partitioned into consecutive extents, and the per-block
    data lead from every block to the object it belongs to. *)
Theorem large_extents_tile : forall a, lreach a ->
  0 <= l_idx a <= BLOCKS_PER_HEAP /\
  (forall k, extent a k -> 0 < getLargeObjSlots (l_hdr a k) /\ k + getLargeObjSlots (l_hdr a k) <= l_idx a) /\
  (forall j, 0 <= j < l_idx a ->
     exists k, extent a k /\ k <= j < k + getLargeObjSlots (l_hdr a k) /\ l_base a j = k /\
       forall k', extent a k' -> k' <= j < k' + getLargeObjSlots (l_hdr a k') -> k' = k).
Proof.
  intros a R. pose proof (lreach_inv a R) as I. destruct (linv_seg a I) as (l & S). pose proof (seg_le _ _ _ _ S) as L.
  split; [destruct I; lia|]. split.
  - intros k Hk. apply (extent_starts _ _ _ S) in Hk. destruct (seg_at _ _ _ _ _ S Hk) as (A & B & _). auto.
  - intros j Hj. destruct (seg_cover _ _ _ _ j S Hj) as (k & K1 & K2). exists k.
    destruct (seg_at _ _ _ _ _ S K1) as (_ & _ & B). split; [now apply (extent_starts _ _ _ S)|]. split; [exact K2|].
    split; [apply B; exact K2|]. intros k' E' H'. apply (extent_starts _ _ _ S) in E'. destruct (seg_at _ _ _ _ _ S E') as (_ & _ & B').
    rewrite <- (B' j H'). apply B. exact K2.
Qed.

(** A large allocation never trips an assertion.  When it succeeds the new object occupies
    blocks of this arena that overlap no object in use; those are untouched. *)
Theorem large_alloc_fresh : forall a g ph size, lreach a -> MEM_BLOCK_SIZE <= size < HEAP_ARENA_SIZE ->
  exists a' r, allocLarge1 g ph a size = Ok (a', r) /\
    (forall k, extent a k -> h_inuse g (l_hdr a k) = true ->
       extent a' k /\ l_hdr a' k = l_hdr a k /\
       match r with Some x => x + blocks_of size <= k \/ k + getLargeObjSlots (l_hdr a k) <= x | None => True end) /\
    match r with
    | Some x => extent a' x /\ h_used (l_hdr a' x) = true /\ h_size (l_hdr a' x) = size /\
                getLargeObjSlots (l_hdr a' x) = blocks_of size /\ size <= blocks_of size * MEM_BLOCK_SIZE /\
                0 <= x /\ x + blocks_of size <= BLOCKS_PER_HEAP
    | None => True
    end.
Proof.
  intros a g ph size R Hs. pose proof (lreach_inv a R) as I.
  destruct (allocLarge1_ok g ph a size I) as (a' & r & E & I' & K & P); [unfold MEM_BLOCK_SIZE in Hs; lia|].
  exists a', r. split; [exact E|]. split; [exact K|]. destruct r as [x|]; [|exact Logic.I].
  destruct P as (P1 & P2 & P3). split; [exact P1|]. rewrite P2. cbn [getLargeObjSlots h_used h_size].
  repeat split.
  - unfold blocks_of, MEM_BLOCK_SIZE. pose proof (Z.div_mod (size + 4096 - 1) 4096). pose proof (Z.mod_pos_bound (size + 4096 - 1) 4096). lia.
  - destruct (linv_seg a' I') as (l & S). apply (extent_starts _ _ _ S) in P1. apply (starts_in _ _ _ _ _ S) in P1. lia.
  - destruct I' as (I' & _). lia.
Qed.

(** Sweeping an arena never trips an assertion and leaves every object in use alone. *)
Theorem large_sweep_keeps : forall a g, lreach a ->
  exists a', sweepLargeObjects1 g a = Ok a' /\
    forall k, extent a k -> h_inuse g (l_hdr a k) = true -> extent a' k /\ l_hdr a' k = l_hdr a k.
Proof.
  intros a g R. destruct (lreach_inv a R) as (Hi & l1 & l2 & S1 & S2).
  destruct (sweep_large_ok LOOP g l2 a (l_curr a)) as (a' & E & X1 & X2 & X3 & X4 & X5 & X6); auto.
  { pose proof (seg_le _ _ _ _ S1). pose proof (seg_le _ _ _ _ S2). unfold LOOP. unfold BLOCKS_PER_HEAP in *. lia. }
  exists a'. split; [exact E|]. intros k Hk Hu.
  assert (Sa : seg a 0 (l1 ++ l2) (l_idx a)) by (eapply seg_app; eauto).
  assert (S1' : seg a' 0 l1 (l_curr a)) by (apply seg_frame with (a := a); auto; intros j Hj; split; [apply X4|apply X5]; lia).
  assert (Sa' : seg a' 0 (l1 ++ l2) (l_idx a')) by (rewrite X1; eapply seg_app; eauto).
  split; [apply (extent_starts _ _ _ Sa'); now apply (extent_starts _ _ _ Sa)|].
  destruct (X6 k) as [H|[H _]]; [exact H|]. exfalso.
  unfold h_inuse, inuse in Hu. cbn [o_used o_ver] in Hu. rewrite H in Hu. destruct (negb (h_used (l_hdr a k))); [discriminate|].
  assert (N : 0 <? versionCmp (g mod 64) ((g - 2) mod 64) = true).
  { unfold versionCmp. pose proof (Z.mod_pos_bound g 64). pose proof (Z.div_mod g 64).
    assert (C : (g - 2) mod 64 = g mod 64 - 2 \/ (g - 2) mod 64 = g mod 64 + 62).
    { destruct (Z_lt_le_dec (g mod 64) 2).
      - right. symmetry. apply Z.mod_unique_pos with (q := g / 64 - 1); lia.
      - left. symmetry. apply Z.mod_unique_pos with (q := g / 64); lia. }
    destruct (Z.eqb_spec ((g - 2) mod 64 - g mod 64) 0); [lia|].
    destruct (Z.ltb_spec (-32) ((g - 2) mod 64 - g mod 64)); destruct (Z.ltb_spec ((g - 2) mod 64 - g mod 64) 32); cbn [andb];
    destruct (Z.ltb_spec 0 ((g - 2) mod 64 - g mod 64)); try reflexivity; lia. }
  rewrite N in Hu. discriminate.
Qed.
Print Assumptions large_sweep_keeps.

(** A fresh arena serves every request of up to 16383 blocks ... *)
Theorem large_alloc_fresh_arena : forall g ph size, MEM_BLOCK_SIZE <= size <= HEAP_ARENA_SIZE - MEM_BLOCK_SIZE ->
  exists a', allocLarge1 g ph arenaNew size = Ok (a', Some 0).
Proof.
  intros g ph size H. unfold allocLarge1. destruct (Z.ltb_spec size HEAP_ARENA_SIZE); [|unfold HEAP_ARENA_SIZE, MEM_BLOCK_SIZE in *; lia].
  cbn [assertT]. unfold heapArenaAllocLarge.
  assert (Eb : 0 < blocks_of size < BLOCKS_PER_HEAP).
  { unfold blocks_of. unfold HEAP_ARENA_SIZE, BLOCKS_PER_HEAP, MEM_BLOCK_SIZE in *.
    pose proof (Z.div_mod (size + 4096 - 1) 4096). pose proof (Z.mod_pos_bound (size + 4096 - 1) 4096). lia. }
  assert (EL : exists f, LOOP = S f) by (exists (Z.to_nat (BLOCKS_PER_HEAP + 1)); unfold LOOP, BLOCKS_PER_HEAP; lia).
  destruct EL as (f & ->). cbn [alloc_loop arenaNew l_curr l_idx]. rewrite Z.eqb_refl.
  destruct (Z.leb_spec (0 + blocks_of size) BLOCKS_PER_HEAP); [|lia].
  destruct (Z.leb_spec BLOCKS_PER_HEAP (0 + blocks_of size)); [lia|]. cbn [obind]. eexists. reflexivity.
Qed.

(** ... but the assertion in gcAllocLargeObject lets larger ones through, and those no fresh
    arena can serve: the loop of src/gc.c:502-526 creates arenas for ever. *)
Theorem large_alloc_always_served_refuted : exists size, MEM_BLOCK_SIZE <= size < HEAP_ARENA_SIZE /\
  forall g ph, allocLarge1 g ph arenaNew size = Ok (arenaNew, None).
Proof.
  exists (HEAP_ARENA_SIZE - 1). split; [vm_compute; split; congruence|]. intros g ph. unfold allocLarge1, heapArenaAllocLarge.
  assert (EL : exists f, LOOP = S f) by (exists (Z.to_nat (BLOCKS_PER_HEAP + 1)); unfold LOOP, BLOCKS_PER_HEAP; lia).
  destruct EL as (f & ->). reflexivity.
Qed.

(** Two objects, the first one dies, a bigger request merges nothing and goes behind them,
    a smaller one takes part of the first extent, and the rest becomes a free extent. *)
Definition demo_large : option (list Z * list Z) :=
  match allocLarge1 2 PNone arenaNew 9000 with
  | Ok (a1, Some x1) => match allocLarge1 2 PNone a1 5000 with
    | Ok (a2, Some x2) =>
        (* a flip, and the second object survives *)
        let a3 := w_curr (w_hdr a2 x2 (mkH true 5000 4 0)) 0 in
        match allocLarge1 4 PNone a3 4096 with
        | Ok (a4, Some x3) => match allocLarge1 4 PNone a4 13000 with
          | Ok (a5, Some x4) => Some ([x1; x2; x3; x4], map (fun k => getLargeObjSlots (l_hdr a5 k)) [0; 1; 3; 5])
          | _ => None end
        | _ => None end
    | _ => None end
  | _ => None end.
Example demo_large_ok : demo_large = Some ([0; 3; 0; 5], [1; 2; 2; 4]).
Proof. vm_compute. reflexivity. Qed.
Example demo_large_reach : exists a, lreach a /\ extent a 0 /\ h_inuse 2 (l_hdr a 0) = true /\ l_idx a = 3 /\ l_base a 2 = 0.
Proof.
  eexists. split; [eapply lr_step; [apply lr_new|eapply (ls_alloc 2 PNone arenaNew 9000)]|].
  - vm_compute. congruence.
  - unfold allocLarge1, heapArenaAllocLarge.
    assert (EL : exists f, LOOP = S f) by (exists (Z.to_nat (BLOCKS_PER_HEAP + 1)); unfold LOOP, BLOCKS_PER_HEAP; lia).
    destruct EL as (f & ->). reflexivity.
  - split; [split; [constructor|vm_compute; reflexivity]|]. vm_compute. auto.
Qed.
Print Assumptions large_extents_tile.
Print Assumptions large_alloc_fresh.
Print Assumptions large_alloc_fresh_arena.
Print Assumptions large_alloc_always_served_refuted.
