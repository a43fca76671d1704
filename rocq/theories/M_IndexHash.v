(** Model of library/cpp/include/wavemap/core/indexing/index_hashes.h: the hash values under which
    the hashed maps file their blocks and nodes. *)
From Verif Require Import Base M_IntMath M_NdtreeIndex.

(** Conversion to [unsigned int]. [int] coordinates are converted to [size_t] by [u64]. *)
Definition hash32 (x : Z) : Z := x mod 2 ^ 32.

(** index_hashes.h:12-13, :25-26: [coefficients], the powers of 17191 as [size_t]. *)
Definition hash_coefficients (n : nat) : list Z := map u64 (pow_sequence 17191 n).

(** index_hashes.h:16-17, :29-31 [std::transform_reduce(first, last, data, 0u)]. The accumulator has
    the type of the initial value [0u], so every partial sum (a [size_t]) is cut to 32 bits. With at
    most 3 terms the library's implementation goes through them one by one, in order. *)
Fixpoint transform_reduce (acc : Z) (coefs idx : list Z) : Z :=
  match coefs, idx with
  | a :: coefs', x :: idx' => transform_reduce (hash32 (u64 (acc + u64 (a * u64 x)))) coefs' idx'
  | _, _ => acc
  end.

(** index_hashes.h:15-18 [IndexHash<dim>::operator()]. *)
Definition index_hash (idx : list Z) : Z :=
  transform_reduce 0 (hash_coefficients (length idx)) idx.

(** index_hashes.h:28-33 [NdtreeIndexHash<dim>::operator()]: the position's part is 32 bits wide; the
    height's part is computed and added as [size_t]. *)
Definition node_hash (n : node_index) : Z :=
  let coefs := hash_coefficients (S (length (position n))) in
  u64 (transform_reduce 0 (removelast coefs) (position n) + u64 (last coefs 0 * u64 (height n))).
