(** The sweep of the overrelaxing method of gauge fixing: src/operations/gauge_fixing.cpp:262-360.
    Simplifications: one rank only, so that the exchange of the borders (322-357) does nothing (no site has neighbours from locVol on); the rotation found at each site
    (compute_Landau_or_Coulomb_functional_der, unsafe_su3_hermitian, su3_unitarize_maximal_trace_projecting, and its square at random: 286-303) is a function of the parity, the
    links at that moment and the site, left open. *)
From Coq Require Import Reals.
From Coquelicot Require Import Complex.
From Verif Require Import Base GeometryModel GeoMiscModel EoModel EoProofs StapleModel CplxModel MatModel MatSpec GaugeModel GfixModel.
Open Scope Z_scope.

Section Sweep.
Context (g : grid) (ord : Z -> nat -> nat -> nat -> Z -> Z -> list Z) (rot : Z -> @qfield cmat -> Z -> cmat).
(** gauge_fixing.cpp:305-316: unsafe_su3_prod_su3(tmp,g,fixedConf[ivol][mu]); unsafe_su3_prod_su3_dag(fixedConf[b][mu],tmp,g) *)
Definition overrelax_site (r : Z) (gx : cmat) (ivol : Z) (conf : @qfield cmat) : @qfield cmat :=
  fold_left (fun u mu => match dw g r ivol mu with
    | Some b => link_put u b mu (op2 su3_prod_dag (op2 su3_prod (Some gx) (u ivol mu)) (Some gx))
    | None => u end) dirs conf.
(** gauge_fixing.cpp:272-320: the sites of one parity *)
Definition overrelax_half (r eo : Z) (conf : @qfield cmat) : @qfield cmat :=
  PAR ord r 25 (Z.to_nat eo) 0 0 (locVolh g) (fun ieo u => match loclx_of_loceo (rank_eo g r) eo ieo with
    | Some ivol => overrelax_site r (rot eo u ivol) ivol u
    | None => u end) conf.
Definition overrelax_sweep (r : Z) (conf : @qfield cmat) : @qfield cmat := overrelax_half r 1 (overrelax_half r 0 conf).
End Sweep.
