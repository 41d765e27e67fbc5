(** What a file holding a field looks like. *)
From Verif Require Import Base BytesModel BytesSpec IldgFileModel IldgFileSpec VectorFileModel.

(** the site at place k of the file: x runs fastest, then y, z and t (t is component 0) *)
Definition site_at (L : list Z) (k : Z) : list Z :=
  [k / (L.[1] * L.[2] * L.[3]); k mod L.[1]; k / L.[1] mod L.[2]; k / (L.[1] * L.[2]) mod L.[3]].
(** big endian bytes of the value at a site *)
Definition be_site (native : endianness) (s : site) : list Z := concat (map (fixFromNative native BigEndian) s).
(** the data of the whole lattice *)
Definition payload (native : endianness) (L : list Z) (field : list Z -> site) : list Z :=
  flat_map (fun k => be_site native (field (site_at L k))) (seqZ (prodZ L)).
(** each site has ndeg degrees of freedom of sz bytes *)
Definition shaped (sz ndeg : Z) (s : site) : Prop :=
  Z.of_nat (length s) = ndeg /\ Forall (fun t => Z.of_nat (length t) = sz /\ Forall (fun b => 0 <= b < 256) t) s.
