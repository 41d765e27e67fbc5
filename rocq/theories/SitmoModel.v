(** Model of src/base/sitmo.hpp: the counter based generator and the field streams.
    uint64_t words are integers in [0,2^64); a Word is the list of its 4 words, a Key of its 5. *)
From Coq Require Import Reals.
From Flocq Require Import Core.
From Verif Require Import Base GeometryModel ParModel Ran2Model.
Open Scope Z_scope.

Definition two64 : Z := 2 ^ 64.
Definition add64 (a b : Z) : Z := (a + b) mod two64.
(** sitmo.hpp:98, 115: "(x1<<rx)|(x1>>(64-rx))" *)
Definition rotl64 (x r : Z) : Z := Z.lor (Z.shiftl x r mod two64) (Z.shiftr x (64 - r)).

(** sitmo.hpp:85-86 and 105-107 *)
Definition mk (j i : nat) : Z := nth i (nth (j mod 2) [[14;16];[25;33]] []) 0.
Definition m (j l i : nat) : Z := nth i (nth l (nth (j mod 2) [[[52;57];[23;40];[5;37]]; [[46;12];[58;22];[32;32]]] []) []) 0.

(** sitmo.hpp:91-99: the body of the first loop on i *)
Definition key_step (key : list Z) (j : nat) (x : list Z) (i : nat) : list Z :=
  let i0 := (2 * i)%nat in
  let i1 := ((2 * i + 1) mod 4)%nat in
  let rx := mk j i in
  let x := upd x i1 (add64 x.[i1] (add64 key.[(2 * i + 1 + j) mod 5] (if (i =? 1)%nat then Z.of_nat j else 0))) in
  let x := upd x i0 (add64 x.[i0] (add64 x.[i1] key.[(2 * i + j) mod 5])) in
  let x := upd x i1 (rotl64 x.[i1] rx) in
  upd x i1 (Z.lxor x.[i1] x.[i0]).
(** sitmo.hpp:109-117: the body of the loops on l and i *)
Definition mix_step (j : nat) (x : list Z) (li : nat * nat) : list Z :=
  let '(l, i) := li in
  let i0 := (2 * i)%nat in
  let i1 := ((2 * i + (if (l mod 2 =? 0)%nat then 3 else 1)) mod 4)%nat in
  let rx := m j l i in
  let x := upd x i0 (add64 x.[i0] x.[i1]) in
  let x := upd x i1 (rotl64 x.[i1] rx) in
  upd x i1 (Z.lxor x.[i1] x.[i0]).
Definition encrypt_round (key : list Z) (x : list Z) (j : nat) : list Z :=
  fold_left (mix_step j) [(0,0);(0,1);(1,0);(1,1);(2,0);(2,1)]%nat (fold_left (key_step key j) [0;1]%nat x).
(** sitmo.hpp:82-125 *)
Definition encrypt (key x : list Z) : list Z :=
  let x := fold_left (encrypt_round key) (seq 0 5) x in
  upd x 3 (add64 x.[3] 5).

(** sitmo.hpp:128-141 *)
Definition buildKey (w : list Z) : list Z :=
  firstn 4 w ++ [Z.lxor (Z.lxor (Z.lxor (Z.lxor 0x1BD11BDAA9FC1A22 w.[0]) w.[1]) w.[2]) w.[3]].

(** sitmo.hpp:158-178 State::operator+ ; the do-while on iDigit, from iDigit=1 *)
Fixpoint carry (fuel iDigit : nat) (out : list Z) : list Z :=
  match fuel with
  | O => out
  | S fuel =>
      let out := upd out iDigit (add64 out.[iDigit] 1) in
      if (out.[iDigit] =? 0) && (S iDigit <? 4)%nat then carry fuel (S iDigit) out else out
  end.
Definition state_add (s : list Z) (z : Z) : list Z :=
  let out := upd s 0 (add64 s.[0] z) in
  if out.[0] <=? s.[0] then carry 4 1 out else out.

(** sitmo.hpp:218-224 seed, 227-246 generateNth: the low half of the first word, on a little endian machine; the state is
    never advanced and is zero *)
Definition seed_key (s : Z) : list Z := buildKey [s; 0; 0; 0].
Definition zero_state : list Z := [0; 0; 0; 0].
Definition nth_block (key : list Z) (offset : Z) : list Z := encrypt key (state_add zero_state offset).
Definition generateNth (key : list Z) (offset : Z) : Z := (nth_block key offset).[0] mod 2 ^ 32.

(** sitmo.hpp:322-336 getRngViewOnGlbSiteIRndReal: glblx is converted to int, then to uint64_t *)
Definition stream_position (glbvol offsetReal glblx irnd : Z) : Z :=
  let irnd_double := (offsetReal * glbvol + wrap32 glblx + glbvol * irnd) mod two64 in
  (2 * irnd_double) mod two64.
(** sitmo.hpp:343-352 getUniformDistributed; the order of the two calls of g is not specified by the language *)
Definition uniform_of (a b : Z) : R :=
  let res := b64 (b64 (b64 (IZR a / 4294967296) + IZR b) / 4294967296) in
  if Rle_dec 1 res then b64 (999999999999999889 / 1000000000000000000) else res.
Definition getUniformDistributed (swapped : bool) (key : list Z) (irng : Z) : R :=
  let a := generateNth key irng in
  let b := generateNth key ((irng + 1) mod two64) in
  if swapped then uniform_of b a else uniform_of a b.

(** sitmo.hpp:388-408 fillField: value at local site i of rank r, degree d *)
Definition fillField (swapped : bool) (key : list Z) (g : grid) (offsetReal r i d : Z) : option R :=
  let? gl := glblxOfLoclx (label_all_sites g (coordOfRank g r)) i in
  Some (getUniformDistributed swapped key (stream_position (glbVol g) offsetReal gl d)).
(** sitmo.hpp:366-376, 386-391 fillWithOrigin *)
Definition fillOrigin (swapped : bool) (key : list Z) (g : grid) (offsetReal d : Z) : R :=
  getUniformDistributed swapped key (stream_position (glbVol g) offsetReal 0 d).

(** sitmo.hpp:419-445: the stream; getDrawer returns the current number of reals as offset and skips nRealsPerSite.
    [offsets n0 l]: the offsets given to the drawers of the types with l reals per site, requested in this order *)
Fixpoint offsets (n0 : Z) (l : list Z) : list Z :=
  match l with [] => [] | n :: r => n0 :: offsets ((n0 + n) mod two64) r end.

(** sitmo.hpp:380-385 enforce_single_usage: None is a crash *)
Definition enforce_single_usage (used : bool) : option bool := if used then None else Some true.

(** sitmo.hpp:528-532 remapUniformToSign *)
Definition remapUniformToSign (x : R) : Z := Ztrunc (b64 (x * 2)) * 2 - 1.
