(** Linear algebra of the Field (src/base/field.hpp), exact real arithmetic.  The memory of a rank holds all its fields; the field
    whose data starts at p has component (site,deg) at address p + ix site deg (ix is FieldModel.index for the layout at hand). *)
From Coq Require Import Reals.
From Verif Require Import Base ParModel ReduceModel.
Open Scope Z_scope.

Section F.
Context (ix : Z -> Z -> Z) (nDeg nSites : Z) (bk : Z -> backend).

(** the UNROLL_FOR on the degrees of freedom of t(site,deg) = f(t(site,deg),oth(site,deg)) *)
Fixpoint sitewise (f : R -> R -> R) (p q site : Z) (degs : list Z) : prog R :=
  match degs with
  | [] => Ret
  | d :: r => Ld (p + ix site d) (fun x => Ld (q + ix site d) (fun y => St (p + ix site d) (f x y) (sitewise f p q site r)))
  end.
Definition loop (f : R -> R -> R) (p q : Z) (m m' : mem R) : Prop :=
  PAR (bk nSites) 0 nSites (fun site => sitewise f p q site (seqZ nDeg)) m m'.

(** field.hpp:767-783 operator+= and -= ; 785-805 operator*= and /= ; 807-818 reset; 1389-1412 assign *)
Definition add_assign (p q : Z) := loop (fun x y => (x + y)%R) p q.
Definition sub_assign (p q : Z) := loop (fun x y => (x - y)%R) p q.
Definition mul_assign (p : Z) (c : R) := loop (fun x _ => (x * c)%R) p p.
Definition div_assign (p : Z) (c : R) := loop (fun x _ => (x / c)%R) p p.
Definition reset (p : Z) := loop (fun _ _ => 0%R) p p.
Definition assign (p q : Z) := loop (fun _ y => y) p q.

(** field.hpp:311-360 realPartOfScalarProdWith: r+=self*oth over the degrees, buf[site]=r; then buf.reduce, which copies to tmp
    (908-918) and reduces tmp over sites and ranks.  buf and tmp have one degree: their index is the site *)
Fixpoint prod_site (p q b site : Z) (degs : list Z) (r : R) : prog R :=
  match degs with
  | [] => St (b + site) r Ret
  | d :: t => Ld (p + ix site d) (fun x => Ld (q + ix site d) (fun y => prod_site p q b site t (r + x * y)%R))
  end.
Definition copy_site (tmp b site : Z) : prog R := Ld (b + site) (fun x => St (tmp + site) x Ret).
Definition scalar_prod (p q b tmp : Z) (ranks ranks' : list (mem R)) (out : R) : Prop :=
  exists ms1 ms2,
    Forall2 (fun m m1 => PAR (bk nSites) 0 nSites (fun s => prod_site p q b s (seqZ nDeg) 0%R) m m1) ranks ms1 /\
    Forall2 (fun m1 m2 => PAR (bk nSites) 0 nSites (copy_site tmp b) m1 m2) ms1 ms2 /\
    Forall2 (fun m2 m' => reduce_loop bk Rplus (fun s _ => tmp + s) 1 1 nSites nSites m2 m') ms2 ranks' /\
    red_of Rplus (map (fun m' => m' tmp) ranks') out.

(** field.hpp:826-834 normalize(newNorm) *)
Definition normalize (p b tmp : Z) (newNorm : R) (ranks ranks' : list (mem R)) (ret : R) : Prop :=
  exists ms n2, scalar_prod p p b tmp ranks ms n2 /\
    let f := (newNorm / sqrt n2)%R in
    Forall2 (mul_assign p f) ms ranks' /\ ret = (1 / f)%R.

(** field.hpp:837-859 normalize(oth,newNorm): the first sqrt is already that of the squared norm *)
Definition normalize_of (p q b tmp : Z) (newNorm : R) (ranks ranks' : list (mem R)) (ret : R) : Prop :=
  exists ms n2, scalar_prod q q b tmp ranks ms n2 /\
    let oldNorm2 := sqrt n2 in
    let fact := (newNorm / sqrt oldNorm2)%R in
    Forall2 (loop (fun _ y => (y * fact)%R) p q) ms ranks' /\ ret = (1 / fact)%R.
End F.
