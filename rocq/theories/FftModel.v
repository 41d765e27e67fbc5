(** Fourier transform of a field: src/operations/fft.hpp, and the correlator of the topological charge, src/measures/gauge/topological_charge.cpp.
    All the ranks together: [data r i] is what the site i of the rank r holds, a function of the index of the complex number in the site.
    Exact real arithmetic.  The library called on each line (fftw_execute_dft, with the plan made at line 142: ncpp transforms of length glbSize[mu],
    elements ncpp apart) is modelled by what its manual says: the discrete Fourier transform with the sign given; the branch with CUDA, which calls
    cufft after a transposition, is left out, as are the copies for the other layouts, the timings and the prints. *)
From Verif Require Import Base GeometryModel GeoMiscModel AllToAllModel IldgModel.
From Coq Require Import Reals.
From Coquelicot Require Import Complex.

(** complexes of a site *)
Definition site_val := nat -> C.
(** e^(i x) *)
Definition cis (x : R) : C := (cos x, sin x).
(** sum on 0<=k<n *)
Fixpoint nsum (n : nat) (f : Z -> C) : C := match n with O => RtoC 0 | S k => (nsum k f + f (Z.of_nat k))%C end.
Definition zsum (n : Z) (f : Z -> C) : C := nsum (Z.to_nat n) f.
(** FFTW: Y_k = sum_j X_j e^(sign 2 pi i j k/n) *)
Definition dft_line (n : Z) (sign : R) (v : Z -> C) (k : Z) : C := zsum n (fun j => v j * cis (sign * (2 * PI) * (IZR j * IZR k / IZR n)))%C.

Section Fft.
Variable g : grid.
(** the orders of the loops of n elements *)
Variable sched : Z -> list Z.

(** fft.hpp:146-153: the line ioff, in place; it is undefined if some element of the line is *)
Definition fft_line (n : Z) (sign : R) (buf : table site_val) (ioff : Z) : table site_val :=
  let get j := buf (ioff * n + j) in
  let defined := forallb (fun j => match get j with Some _ => true | None => false end) (seqZ n) in
  let v icpp j := match get j with Some s => s icpp | None => RtoC 0 end in
  fun p => if (ioff * n <=? p) && (p <? ioff * n + n) then
             if defined then Some (fun icpp => dft_line n sign (v icpp) (p - ioff * n)) else None
           else buf p.
Definition fft_lines (mu : nat) (r : Z) (sign : R) (buf : table site_val) : table site_val :=
  fold_left (fft_line (glbSize g).[mu] sign) (sched (locd_perp_size g mu r)) buf.
(** each rank computes, all must succeed *)
Definition all_ranks {A} (f : Z -> option (table A)) : option (Z -> table A) :=
  if forallb (fun r => match f r with Some _ => true | None => false end) (seqZ (nranks g))
  then Some (fun r => match f r with Some t => t | None => tempty end) else None.
(** fft.hpp:56-168, one direction; [buf] is what the buffer holds before *)
Definition fft_dir (sign : R) (st : option ((Z -> table site_val) * (Z -> table site_val))) (mu : nat) : option ((Z -> table site_val) * (Z -> table site_val)) :=
  match st with None => None | Some (data, buf) =>
    match all_ranks (fun r => lx_to_locd g mu sched data (buf r) r) with
    | None => None
    | Some buf => let buf r := fft_lines mu r sign (buf r) in
      match all_ranks (fun r => locd_to_lx g mu sched buf (data r) r) with
      | None => None
      | Some data => Some (data, buf)
      end
    end
  end.
(** fft.hpp:27-177 *)
Definition fft4d (dirs : nat -> bool) (sign : R) (normalize : bool) (junk : Z -> table site_val) (f : Z -> table site_val) : option (Z -> table site_val) :=
  let ds := filter dirs [0; 1; 2; 3]%nat in
  match fold_left (fft_dir sign) ds (Some (f, junk)) with
  | None => None
  | Some (data, _) =>
    let norm := fold_left (fun n mu => n * IZR (glbSize g).[mu])%R ds 1%R in
    if normalize then
      (* f/=norm: field.hpp operator/=, a loop on the sites, C46 *)
      Some (fun r => fold_left (fun t i => match t i with Some s => tset t i (fun icpp => s icpp / RtoC norm)%C | None => t end) (sched (locVol g)) (data r))
    else Some data
  end.

(** topological_charge.cpp:109-144: [charge] holds the real numbers *)
Definition compute_topo_corr (timeMomRep : bool) (junk : Z -> table site_val) (charge : Z -> table R) : option (Z -> table R) :=
  let ccharge r := fold_left (fun t i => match charge r i with Some q => tset t i (fun _ => RtoC q) | None => t end) (sched (locVol g)) tempty in
  match fft4d (fun _ => true) 1 true junk ccharge with
  | None => None
  | Some ccharge =>
    let ccharge r := fold_left (fun t i => match t i with Some s => tset t i (fun icpp => s icpp * s icpp)%C | None => t end) (sched (locVol g)) (ccharge r) in
    match fft4d (if timeMomRep then fun mu => Nat.eqb mu 0 else fun _ => true) (-1) false junk ccharge with
    | None => None
    | Some ccharge => Some (fun r => fold_left (fun t i => match ccharge r i with Some s => tset t i (fst (s 0%nat)) | None => t end) (sched (locVol g)) (charge r))
    end
  end.
End Fft.
