(** C08, C09, C35: sizes, size caches, and what gets written. *)
From Verif Require Import Base Varint WireFmt Utf8 Types Ser Spec ValInd SerProofs TypeProofs Examples.

(** C08.  [enc] is the wire format written as plain mathematics in Spec.v; a node [y] of [v]
    at position [b] has its size cache at [b]. *)
Theorem c08_announced_size : forall m t v h,
  ty_ok t = true -> wt t v = true -> writable v = true -> lenN (enc v) < 2 ^ 32 ->
  exists h1 h2 h3 bs,
    compute m [] v h = Ok (lenN bs, h1) /\ cache_size m [] v h = Ok (lenN bs, h2) /\
    steit_serialize m v h = Ok (bs, h3) /\ bs = enc v /\
    (forall b y, at_addr [] v b y -> has_cache y = true ->
       h2 b = lenN (enc y) /\ cached_size m b y h2 = Ok (lenN (enc y), h2)).
Proof.
  exact announced_sizes.
Qed.
Print Assumptions c08_announced_size.
Example c08_case : (do (n, h) <- cache_size Debug [] (vAll ex_rt) junk; Ok (n, h [O], h [1; 0]%nat, junk [O]))
  = Ok (72, 6, 0, 78).
Proof. vm_compute. reflexivity. Qed.

(** C09. *)
Theorem c09_stale_caches : forall m t v h1 h2,
  ty_ok t = true -> wt t v = true -> writable v = true -> lenN (enc v) < 2 ^ 32 ->
  exists bs h1' h2' h3,
    steit_serialize m v h1 = Ok (bs, h1') /\ steit_serialize m v h2 = Ok (bs, h2') /\
    steit_serialize m v h1' = Ok (bs, h3) /\
    (forall b, h3 b = h1' b) /\
    (forall b, (forall y, at_addr [] v b y -> has_cache y = true -> False) -> h1' b = h1 b).
Proof. exact stale_caches. Qed.
Print Assumptions c09_stale_caches.
Example c09_case :
  to_bytes Debug (vAll ex_rt) junk = to_bytes Debug (vAll ex_rt) (fun _ => 0) /\
  (do (bs, h) <- steit_serialize Debug (vAll ex_rt) junk; Ok (lenN bs, h [O], h [5; 5]%nat)) = Ok (72, 6, 79).
Proof. vm_compute. auto. Qed.

(** C35. *)
Theorem c35_large_map_keys : forall m t v h,
  ty_ok t = true -> wt t v = true -> lenN (enc v) < 2 ^ 32 ->
  (writable v = true -> to_bytes m v h = Ok (enc v)) /\
  (writable v = false -> to_bytes m v h = Panic).
Proof. exact large_map_keys. Qed.
Print Assumptions c35_large_map_keys.

Theorem c35_map : forall m k t r es h,
  ty_ok (TMap k t) = true -> wt (TMap k t) (VMap r es) = true -> lenN (enc (VMap r es)) < 2 ^ 32 ->
  (forall e, In e es -> writable (snd e) = true) ->
  ((exists bs, to_bytes m (VMap r es) h = Ok bs) <-> (forall e, In e es -> fst e <= 2 ^ 29 - 1)) /\
  ((exists e, In e es /\ 2 ^ 29 - 1 < fst e) -> to_bytes m (VMap r es) h = Panic).
Proof. exact map_large_keys. Qed.
Print Assumptions c35_map.

(** Keys of the smaller key types always fit. *)
Theorem c35_small_keys_fit : forall k n, k <> K32 -> n <= mkey_max k -> n <= 2 ^ 29 - 1.
Proof. exact small_keys_fit. Qed.
Print Assumptions c35_small_keys_fit.
Example c35_case : to_bytes Debug (VMap ex_rt [(1, VBool true); (536870912, VBool true)]) junk = Panic /\
  to_bytes Debug (VMap ex_rt [(536870911, VBool true)]) junk = Ok [248; 255; 255; 255; 15; 1].
Proof. vm_compute. auto. Qed.
