(** The stencil kernels of /repo and the situations they are called in. *)
From Verif Require Import Base SpecGrid SpecGhost SpecStencil Comm Spmd Stencil.

Section L.
Context {T : Type}.

(** Decompositions and ghost sizes the theorems cover: blocks at least as wide as the ghost layer. *)
Definition grid2 (py px ny nx g : Z) : Prop := 1 <= py /\ 1 <= px /\ 1 <= g /\ g <= ny /\ g <= nx.
Definition grid3 (pz py px n0 n1 n2 g : Z) : Prop := 1 <= pz /\ 1 <= py /\ 1 <= px /\ 1 <= g /\ g <= n0 /\ g <= n1 /\ g <= n2.

(** Kernels that reset the physical boundary (radius 1):
    (process grid, block, ghost size, input arrays, outputs with their update functions, program). *)
Inductive reset_kernel (z : T) (per : bool) : list Z -> list Z -> Z -> list nat -> @kern T -> list (@phase T) -> Prop :=
| rk_diffusion_2d py px ny nx g full flux fld K : grid2 py px ny nx g -> flux <> fld ->
    star_local 2 [fld] 1 K -> overwrites K ->
    reset_kernel z per [py; px] [ny; nx] g [fld] [(flux, K)] (diffusion_flux_2d z per py px ny nx g full flux fld K)
| rk_outplane_curl_2d py px ny nx g full cx cy fld Kx Ky : grid2 py px ny nx g -> NoDup [cx; cy; fld] ->
    star_local 2 [fld] 1 Kx -> overwrites Kx -> star_local 2 [fld] 1 Ky -> overwrites Ky ->
    reset_kernel z per [py; px] [ny; nx] g [fld] [(cx, Kx); (cy, Ky)] (outplane_curl_2d z per py px ny nx g full cx cy fld Kx Ky)
| rk_diffusion_3d pz py px n0 n1 n2 g full flux fld K : grid3 pz py px n0 n1 n2 g -> flux <> fld ->
    star_local 3 [fld] 1 K -> overwrites K ->
    reset_kernel z per [pz; py; px] [n0; n1; n2] g [fld] [(flux, K)] (diffusion_flux_3d z per pz py px n0 n1 n2 g full flux fld K)
| rk_vector_diffusion_3d pz py px n0 n1 n2 g full flux_fld K : grid3 pz py px n0 n1 n2 g ->
    NoDup (map fst flux_fld) -> (forall a b, In a flux_fld -> In b flux_fld -> fst a <> snd b) ->
    (forall f, star_local 3 [f] 1 (K f)) -> (forall f, overwrites (K f)) ->
    reset_kernel z per [pz; py; px] [n0; n1; n2] g (map snd flux_fld) (map (fun p => (fst p, K (snd p))) flux_fld)
      (vector_diffusion_flux_3d z per pz py px n0 n1 n2 g full flux_fld K)
| rk_divergence_3d pz py px n0 n1 n2 g full dvg vx vy vz K : grid3 pz py px n0 n1 n2 g -> ~ In dvg [vx; vy; vz] ->
    star_local 3 [vx; vy; vz] 1 K -> overwrites K ->
    reset_kernel z per [pz; py; px] [n0; n1; n2] g [vx; vy; vz] [(dvg, K)] (divergence_3d z per pz py px n0 n1 n2 g full dvg vx vy vz K).

(** The 3D curl, for any outcome [race] of its racing reads. *)
Inductive curl_kernel (z : T) (per : bool) : list Z -> list Z -> Z -> list nat -> @kern T -> list (@phase T) -> Prop :=
| ck_curl_3d pz py px n0 n1 n2 g full cx cy cz vx vy vz Kx Ky Kz race : grid3 pz py px n0 n1 n2 g ->
    NoDup [cx; cy; cz] -> (forall o, In o [cx; cy; cz] -> ~ In o [vx; vy; vz]) ->
    (forall K, In K [Kx; Ky; Kz] -> star_local 3 [vx; vy; vz] 1 K /\ overwrites K) ->
    curl_kernel z per [pz; py; px] [n0; n1; n2] g [vx; vy; vz] [(cx, Kx); (cy, Ky); (cz, Kz)]
      (curl_3d z per pz py px n0 n1 n2 g full cx cy cz vx vy vz Kx Ky Kz race).

(** Kernels that do not reset the boundary; they add to their output:
    (process grid, block, ghost size, radius, inputs, outputs, program). *)
Inductive adding_kernel (per : bool) : list Z -> list Z -> Z -> Z -> list nat -> @kern T -> list (@phase T) -> Prop :=
| ak_advection_2d py px ny nx g full flux fld vx vy K : grid2 py px ny nx g -> 2 <= g -> ~ In flux [fld; vx; vy] ->
    star_local 2 [fld; vx; vy] 2 K ->
    adding_kernel per [py; px] [ny; nx] g 2 [fld; vx; vy] [(flux, K)] (advection_flux_2d per py px ny nx g full flux fld vx vy K)
| ak_update_vorticity_2d py px ny nx g full w fx fy K : grid2 py px ny nx g -> ~ In w [fx; fy] ->
    star_local 2 [fx; fy] 1 K ->
    adding_kernel per [py; px] [ny; nx] g 1 [fx; fy] [(w, K)] (update_vorticity_2d per py px ny nx g full w fx fy K)
| ak_advection_3d pz py px n0 n1 n2 g full flux fld vx vy vz K : grid3 pz py px n0 n1 n2 g -> 2 <= g -> ~ In flux [fld; vx; vy; vz] ->
    star_local 3 [fld; vx; vy; vz] 2 K ->
    adding_kernel per [pz; py; px] [n0; n1; n2] g 2 [fld; vx; vy; vz] [(flux, K)] (advection_flux_3d per pz py px n0 n1 n2 g full flux fld vx vy vz K)
| ak_update_vorticity_3d pz py px n0 n1 n2 g full wx wy wz fx fy fz Kx Ky Kz : grid3 pz py px n0 n1 n2 g ->
    NoDup [wx; wy; wz] -> (forall o, In o [wx; wy; wz] -> ~ In o [fx; fy; fz]) ->
    (forall K, In K [Kx; Ky; Kz] -> star_local 3 [fx; fy; fz] 1 K) ->
    adding_kernel per [pz; py; px] [n0; n1; n2] g 1 [fx; fy; fz] [(wx, Kx); (wy, Ky); (wz, Kz)]
      (update_vorticity_3d per pz py px n0 n1 n2 g full wx wy wz fx fy fz Kx Ky Kz)
| ak_update_vorticity_penalised_3d pz py px n0 n1 n2 g full wx wy wz ux uy uz vx vy vz Kx Ky Kz : grid3 pz py px n0 n1 n2 g ->
    NoDup [wx; wy; wz] -> (forall o, In o [wx; wy; wz] -> ~ In o [vx; vy; vz; ux; uy; uz]) ->
    (forall K, In K [Kx; Ky; Kz] -> star_local 3 [vx; vy; vz; ux; uy; uz] 1 K) ->
    adding_kernel per [pz; py; px] [n0; n1; n2] g 1 [vx; vy; vz; ux; uy; uz] [(wx, Kx); (wy, Ky); (wz, Kz)]
      (update_vorticity_penalised_3d per pz py px n0 n1 n2 g full wx wy wz ux uy uz vx vy vz Kx Ky Kz).
End L.
