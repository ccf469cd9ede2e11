(* Backbone/Datamodel: Slab, Cylinder, Sphere, Material and Mesh. *)
From Coq Require Import String ZArith List Bool.
From Verif Require Import Base ModelNumTools.
Import ListNotations.
Local Open Scope Z_scope.

(* GeomKind.h:6 *)
Inductive GeomKind := GeomUNDEFINED | SLAB | CYLINDER | SPHERE.

Section Mesh.
Context {T : Type} {N : Num T}.
(* M_PI *)
Variable mpi : T.

(* The scaling by unit at the end of the geometry functions: m, cm, other.
   Slab.cpp:14-19, Cylinder.cpp:17-22 and 31-36, Sphere.cpp:17-22 and 32-37 *)
Definition by_unit (dim : string) (cm : T) (v : vec T) : vec T :=
  if String.eqb dim "m" then v
  else if String.eqb dim "cm" then vscale v cm
  else vscale v (nopp n1).

(* Slab.cpp:7-20 *)
Definition slab_volumes (b : vec T) (dim : string) : res (vec T) :=
  v <- zfor 1 (vlen b) (fun i v =>
         x <- vget b i ;; y <- vget b (i - 1) ;; vset v (i - 1) (x [-] y))
       (vzeros (vlen b - 1)) ;;
  Ok (by_unit dim (nofZ 100) v).
(* Slab.cpp:22-26 *)
Definition slab_surfaces (b : vec T) (dim : string) : res (vec T) := Ok (vones (vlen b)).
(* Slab.cpp:28-32; Eigen::last is size - 1 *)
Definition slab_externalSurface (b : vec T) (dim : string) : res T :=
  s <- slab_surfaces b dim ;; vget s (vlen s - 1).

(* Cylinder.cpp:10-23 *)
Definition cyl_volumes (b : vec T) (dim : string) : res (vec T) :=
  v <- zfor 1 (vlen b) (fun i v =>
         x <- vget b i ;; y <- vget b (i - 1) ;;
         vset v (i - 1) (mpi [*] (npow x 2 [-] npow y 2)))
       (vzeros (vlen b - 1)) ;;
  Ok (by_unit dim (nofZ 10000) v).
(* Cylinder.cpp:25-37 *)
Definition cyl_surfaces (b : vec T) (dim : string) : res (vec T) :=
  Ok (by_unit dim (nofZ 100)
        (mkvec (vlen b) (fun i => nofZ 2 [*] mpi [*] vat b i))).
(* Cylinder.cpp:39-43 *)
Definition cyl_externalSurface (b : vec T) (dim : string) : res T :=
  s <- cyl_surfaces b dim ;; vget s (vlen s - 1).

(* Sphere.cpp:10-23 *)
Definition sph_volumes (b : vec T) (dim : string) : res (vec T) :=
  v <- zfor 1 (vlen b) (fun i v =>
         x <- vget b i ;; y <- vget b (i - 1) ;;
         vset v (i - 1) (nlit 4 3 [*] mpi [*] (npow x 3 [-] npow y 3)))
       (vzeros (vlen b - 1)) ;;
  Ok (by_unit dim (nofZ 1000000) v).
(* Sphere.cpp:25-38 *)
Definition sph_surfaces (b : vec T) (dim : string) : res (vec T) :=
  s <- zfor 0 (vlen b) (fun i s =>
         x <- vget b i ;; vset s i (nofZ 4 [*] mpi [*] npow x 2)) (vzeros (vlen b)) ;;
  Ok (by_unit dim (nofZ 10000) s).
(* Sphere.cpp:40-50 *)
Definition sph_externalSurface (b : vec T) (dim : string) : res T :=
  s <- sph_surfaces b dim ;;
  x <- vget s (vlen s - 1) ;;
  if String.eqb dim "m" then Ok x
  else if String.eqb dim "cm" then Ok (x [*] nofZ 10000)
  else Ok (x [*] nopp n1).

(* Material.h:11-69. A law is the coefficient list of its PolynomialFunction.
   None: no conductivity law set (null shared_ptr). *)
Record material := mkMaterial {
  mt_name : string;
  mt_energies : Z;
  mt_temp : T;
  mt_heat : T;
  mt_flux : mat T;
  mt_adj : mat T;
  mt_totflux : vec T;
  mt_cond : option (list T);
  mt_totXS : list (list T);
  mt_fisXS : list (list T);
  mt_diff : list (list T);
  mt_scatt : list (list T);
  mt_ni : list (list T);
  mt_chi : list (list T)
}.

(* Material.h:14-15 *)
Definition newMaterial (name : string) : material :=
  mkMaterial name 0 n0 n0 (mzeros 0 0) (mzeros 0 0) (vzeros 0) None [] [] [] [] [] [].

(* Material.h:17 *)
Definition set_temp (x : T) (m : material) : material :=
  mkMaterial (mt_name m) (mt_energies m) x (mt_heat m) (mt_flux m) (mt_adj m) (mt_totflux m)
    (mt_cond m) (mt_totXS m) (mt_fisXS m) (mt_diff m) (mt_scatt m) (mt_ni m) (mt_chi m).
(* Material.h:21 *)
Definition set_heat (x : T) (m : material) : material :=
  mkMaterial (mt_name m) (mt_energies m) (mt_temp m) x (mt_flux m) (mt_adj m) (mt_totflux m)
    (mt_cond m) (mt_totXS m) (mt_fisXS m) (mt_diff m) (mt_scatt m) (mt_ni m) (mt_chi m).
(* Material.h:23 *)
Definition set_energies (x : Z) (m : material) : material :=
  mkMaterial (mt_name m) x (mt_temp m) (mt_heat m) (mt_flux m) (mt_adj m) (mt_totflux m)
    (mt_cond m) (mt_totXS m) (mt_fisXS m) (mt_diff m) (mt_scatt m) (mt_ni m) (mt_chi m).
(* Material.h:25-26 *)
Definition set_flux (x : mat T) (m : material) : material :=
  mkMaterial (mt_name m) (mt_energies m) (mt_temp m) (mt_heat m) x (mt_adj m) (mt_totflux m)
    (mt_cond m) (mt_totXS m) (mt_fisXS m) (mt_diff m) (mt_scatt m) (mt_ni m) (mt_chi m).
(* Material.h:29-30 *)
Definition set_adj (x : mat T) (m : material) : material :=
  mkMaterial (mt_name m) (mt_energies m) (mt_temp m) (mt_heat m) (mt_flux m) x (mt_totflux m)
    (mt_cond m) (mt_totXS m) (mt_fisXS m) (mt_diff m) (mt_scatt m) (mt_ni m) (mt_chi m).
(* Material.h:33-34 *)
Definition set_totflux (x : vec T) (m : material) : material :=
  mkMaterial (mt_name m) (mt_energies m) (mt_temp m) (mt_heat m) (mt_flux m) (mt_adj m) x
    (mt_cond m) (mt_totXS m) (mt_fisXS m) (mt_diff m) (mt_scatt m) (mt_ni m) (mt_chi m).
(* Material.cpp:9-16, after conversion of the words to numbers *)
Definition set_cond (x : list T) (m : material) : material :=
  mkMaterial (mt_name m) (mt_energies m) (mt_temp m) (mt_heat m) (mt_flux m) (mt_adj m) (mt_totflux m)
    (Some x) (mt_totXS m) (mt_fisXS m) (mt_diff m) (mt_scatt m) (mt_ni m) (mt_chi m).

(* Material.cpp:18-21: null dereference when no law was set *)
Definition getThermalConductivity (m : material) : res T :=
  match mt_cond m with
  | None => UB "null pointer"
  | Some c => poly_calc c (mt_temp m)
  end.

(* The common body of Material.cpp:77-131 *)
Definition law_table (laws : list (list T)) (m : material) : res (vec T) :=
  zfor 0 (mt_energies m) (fun i r =>
    l <- lget laws i ;; x <- poly_calc l (mt_temp m) ;; vset r i x) (vzeros (mt_energies m)).

(* Material.cpp:77-88 *)
Definition getNi (m : material) : res (vec T) :=
  if 0 <? zlen (mt_ni m) then law_table (mt_ni m) m else Ok (vzeros (mt_energies m)).
(* Material.cpp:90-101 *)
Definition getChi (m : material) : res (vec T) :=
  if 0 <? zlen (mt_chi m) then law_table (mt_chi m) m else Ok (vzeros (mt_energies m)).
(* Material.cpp:103-111 *)
Definition getTotalXS (m : material) : res (vec T) := law_table (mt_totXS m) m.
(* Material.cpp:113-121 *)
Definition getFissionXS (m : material) : res (vec T) := law_table (mt_fisXS m) m.
(* Material.cpp:123-131 *)
Definition getDiffusionConstants (m : material) : res (vec T) := law_table (mt_diff m) m.
(* Material.cpp:133-142 *)
Definition getScattMatrix (m : material) : res (mat T) :=
  let e := mt_energies m in
  zfor 0 e (fun i r => zfor 0 e (fun j r =>
    l <- lget (mt_scatt m) (j + i * e) ;; x <- poly_calc l (mt_temp m) ;; mset r i j x) r)
    (mzeros e e).

(* Mesh.h:75-85. The geometry object is null for GeomUNDEFINED. *)
Record mesh := mkMesh {
  ms_bounds : vec T;
  ms_geom : GeomKind;
  ms_cells : Z;
  ms_groups : Z;
  ms_mats : list material;
  ms_nfwd : Z;
  ms_nadj : Z
}.

(* Assignment to m_materials (Mesh.h:82) *)
Definition with_mats (ms : mesh) (l : list material) : mesh :=
  mkMesh (ms_bounds ms) (ms_geom ms) (ms_cells ms) (ms_groups ms) l (ms_nfwd ms) (ms_nadj ms).

(* Mesh.cpp:17-21 *)
Definition setBoundaries (b : vec T) (ms : mesh) : mesh :=
  mkMesh b (ms_geom ms) (vlen b - 1) (ms_groups ms) (ms_mats ms) (ms_nfwd ms) (ms_nadj ms).
(* Mesh.cpp:24-34 *)
Definition setBoundariesUniform (cellSide : T) (n : Z) (ms : mesh) : res mesh :=
  b <- zfor 0 (n + 1) (fun i b => vset b i (nofZ i [*] (cellSide [/] nofZ n))) (vzeros (n + 1)) ;;
  Ok (mkMesh b (ms_geom ms) n (ms_groups ms) (ms_mats ms) (ms_nfwd ms) (ms_nadj ms)).

(* Mesh.cpp:36-48 *)
Definition getVolumes (ms : mesh) (dim : string) : res (vec T) :=
  match ms_geom ms with
  | SLAB => slab_volumes (ms_bounds ms) dim
  | CYLINDER => cyl_volumes (ms_bounds ms) dim
  | SPHERE => sph_volumes (ms_bounds ms) dim
  | GeomUNDEFINED => Ok (vzeros 1)
  end.
(* Mesh.cpp:50-62 *)
Definition getSurfaces (ms : mesh) (dim : string) : res (vec T) :=
  match ms_geom ms with
  | SLAB => slab_surfaces (ms_bounds ms) dim
  | CYLINDER => cyl_surfaces (ms_bounds ms) dim
  | SPHERE => sph_surfaces (ms_bounds ms) dim
  | GeomUNDEFINED => Ok (vzeros 1)
  end.
(* Mesh.cpp:64-74 *)
Definition getExternalSurface (ms : mesh) (dim : string) : res T :=
  match ms_geom ms with
  | SLAB => slab_externalSurface (ms_bounds ms) dim
  | CYLINDER => cyl_externalSurface (ms_bounds ms) dim
  | SPHERE => sph_externalSurface (ms_bounds ms) dim
  | GeomUNDEFINED => Ok n0
  end.

(* m_materials[i]->set...(x): undefined past the end of the vector;
   Mesh.cpp:76-90, 115-129, 173-180, 345-352, 389-396 and 457-463 *)
Definition upd_mat (f : material -> material) (i : Z) (l : list material) : res (list material) :=
  m <- lget l i ;; lset l i (f m).

(* Mesh.cpp:76-82 and 84-90 *)
Definition setTemperatures (ts : vec T) (ms : mesh) : res mesh :=
  l <- zfor 0 (vlen ts) (fun i l => t <- vget ts i ;; upd_mat (set_temp t) i l) (ms_mats ms) ;;
  Ok (with_mats ms l).
(* Mesh.cpp:92-113 *)
Definition getTemperatures (ms : mesh) (dim : string) : res (vec T) :=
  r <- zfor 0 (ms_cells ms) (fun i r => m <- lget (ms_mats ms) i ;; vset r i (mt_temp m))
       (vzeros (ms_cells ms)) ;;
  if String.eqb dim "C" then Ok r
  else if String.eqb dim "K" then Ok (mkvec (vlen r) (fun i => vat r i [+] nlit 27315 100))
  else Ok (vscale r (nopp n1)).
(* Mesh.cpp:115-121 and 123-129 *)
Definition setHeatSources (qs : vec T) (ms : mesh) : res mesh :=
  l <- zfor 0 (vlen qs) (fun i l => q <- vget qs i ;; upd_mat (set_heat q) i l) (ms_mats ms) ;;
  Ok (with_mats ms l).
(* Mesh.cpp:131-141 *)
Definition getHeatSources (ms : mesh) : res (vec T) :=
  zfor 0 (ms_cells ms) (fun i r => m <- lget (ms_mats ms) i ;; vset r i (mt_heat m))
       (vzeros (ms_cells ms)).
(* Mesh.cpp:143-151 *)
Definition getBoundaries (ms : mesh) (dim : string) : vec T :=
  by_unit dim (nofZ 100) (ms_bounds ms).
(* Mesh.cpp:153-161 *)
Definition getMeshMiddlePoints (ms : mesh) : res (vec T) :=
  zfor 0 (vlen (ms_bounds ms) - 1) (fun i r =>
    x <- vget (ms_bounds ms) i ;; y <- vget (ms_bounds ms) (i + 1) ;;
    vset r i ((x [+] y) [/] nofZ 2)) (vzeros (vlen (ms_bounds ms) - 1)).
(* Mesh.cpp:163-171; resize fills with null pointers, all then replaced *)
Definition createMaterials (names : list string) (ms : mesh) : res mesh :=
  l <- zfor 0 (ms_cells ms) (fun i l => n <- lget names i ;; lset l i (newMaterial n))
       (repeat (newMaterial "") (Z.to_nat (ms_cells ms))) ;;
  Ok (with_mats ms l).
(* Mesh.cpp:173-180 *)
Definition setEnergyGroupsNumber (n : Z) (ms : mesh) : res mesh :=
  l <- zfor 0 (ms_cells ms) (fun i l => upd_mat (set_energies n) i l) (ms_mats ms) ;;
  Ok (mkMesh (ms_bounds ms) (ms_geom ms) (ms_cells ms) n l (ms_nfwd ms) (ms_nadj ms)).
(* Mesh.cpp:187-197 *)
Definition getThermalConductivities (ms : mesh) : res (vec T) :=
  zfor 0 (ms_cells ms) (fun i r =>
    m <- lget (ms_mats ms) i ;; x <- getThermalConductivity m ;; vset r i x)
    (vzeros (ms_cells ms)).
(* Mesh.cpp:199-214 *)
Definition getCellSizes (ms : mesh) (dim : string) : res (vec T) :=
  r <- zfor 0 (ms_cells ms) (fun i r =>
         y <- vget (ms_bounds ms) (i + 1) ;; x <- vget (ms_bounds ms) i ;; vset r i (y [-] x))
       (vzeros (ms_cells ms)) ;;
  Ok (by_unit dim (nofZ 100) r).

(* The common body of Mesh.cpp:216-304 *)
Definition xs_table (get : material -> res (vec T)) (ms : mesh) : res (mat T) :=
  zfor 0 (ms_cells ms) (fun m r =>
    mt <- lget (ms_mats ms) m ;;
    v <- get mt ;;
    zfor 0 (ms_groups ms) (fun i r => x <- vget v i ;; mset r i m x) r)
    (mzeros (ms_groups ms) (ms_cells ms)).
(* Mesh.cpp:216-232 *)
Definition getNis := xs_table getNi.
(* Mesh.cpp:234-250 *)
Definition getChis := xs_table getChi.
(* Mesh.cpp:252-268 *)
Definition getTotalXSs := xs_table getTotalXS.
(* Mesh.cpp:270-286 *)
Definition getDiffusionConstantss := xs_table getDiffusionConstants.
(* Mesh.cpp:288-304 *)
Definition getFissionXSs := xs_table getFissionXS.

(* Mesh.cpp:324-343; the tensor is not initialised, every entry is written *)
Definition getScattMatrices (ms : mesh) : res (ten3 T) :=
  zfor 0 (ms_cells ms) (fun m r =>
    mt <- lget (ms_mats ms) m ;;
    s <- getScattMatrix mt ;;
    zfor 0 (ms_groups ms) (fun i r => zfor 0 (ms_groups ms) (fun j r =>
       x <- mget s i j ;; t3set r i j m x) r) r)
    (t3const (ms_groups ms) (ms_groups ms) (ms_cells ms) n0).
(* Mesh.cpp:306-322 *)
Definition getRemovalXSs (ms : mesh) : res (mat T) :=
  tot <- getTotalXSs ms ;;
  scatt <- getScattMatrices ms ;;
  zfor 0 (ms_cells ms) (fun m r => zfor 0 (ms_groups ms) (fun i r =>
    t <- mget tot i m ;; s <- t3get scatt i i m ;; mset r i m (t [-] s)) r)
    (mzeros (ms_groups ms) (ms_cells ms)).

(* fromTensor2dToMatrixXd(t.chip(m, 1)), numeric_tools.cpp:333-342 *)
Definition chip1 (t : ten3 T) (m : Z) : mat T := mkmat (td0 t) (td2 t) (fun i n => t3_at t i m n).

(* Mesh.cpp:345-352 *)
Definition setNeutronFluxes (t : ten3 T) (ms : mesh) : res mesh :=
  l <- zfor 0 (td1 t) (fun m l => upd_mat (set_flux (chip1 t m)) m l) (ms_mats ms) ;;
  Ok (with_mats ms l).
(* Mesh.cpp:389-396 *)
Definition setAdjointFluxes (t : ten3 T) (ms : mesh) : res mesh :=
  l <- zfor 0 (td1 t) (fun m l => upd_mat (set_adj (chip1 t m)) m l) (ms_mats ms) ;;
  Ok (with_mats ms l).

(* The common body of Mesh.cpp:354-370 and 398-414 *)
Definition get_modes (get : material -> mat T) (nModes : Z) (ms : mesh) : res (ten3 T) :=
  zfor 0 (ms_cells ms) (fun m r =>
    mt <- lget (ms_mats ms) m ;;
    zfor 0 nModes (fun n r => zfor 0 (ms_groups ms) (fun i r =>
      x <- mget (get mt) i n ;; t3set r i m n x) r) r)
    (t3const (ms_groups ms) (ms_cells ms) nModes n0).
(* The common body of Mesh.cpp:372-387 and 416-431 *)
Definition get_fundamental (get : material -> mat T) (ms : mesh) : res (mat T) :=
  zfor 0 (ms_cells ms) (fun m r =>
    mt <- lget (ms_mats ms) m ;;
    zfor 0 (ms_groups ms) (fun i r => x <- mget (get mt) i 0 ;; mset r i m x) r)
    (mzeros (ms_groups ms) (ms_cells ms)).
(* Mesh.cpp:354-370 *)
Definition getNeutronFluxes (ms : mesh) := get_modes mt_flux (ms_nfwd ms) ms.
(* Mesh.cpp:372-387 *)
Definition getFundamentalNeutronFluxes (ms : mesh) := get_fundamental mt_flux ms.
(* Mesh.cpp:398-414 *)
Definition getAdjointFluxes (ms : mesh) := get_modes mt_adj (ms_nadj ms) ms.
(* Mesh.cpp:416-431 *)
Definition getFundamentalAdjointFluxes (ms : mesh) := get_fundamental mt_adj ms.

(* Mesh.h:69-73 *)
Definition setForwardEigenmodesNumber (n : Z) (ms : mesh) : mesh :=
  mkMesh (ms_bounds ms) (ms_geom ms) (ms_cells ms) (ms_groups ms) (ms_mats ms) n (ms_nadj ms).
(* Mesh.h:72 *)
Definition setAdjointEigenmodesNumber (n : Z) (ms : mesh) : mesh :=
  mkMesh (ms_bounds ms) (ms_geom ms) (ms_cells ms) (ms_groups ms) (ms_mats ms) (ms_nfwd ms) n.

(* Mesh.cpp:433-455 *)
Definition getProductionOperator (ms : mesh) : res (mat T) :=
  zfor 0 (ms_cells ms) (fun m r =>
    mt <- lget (ms_mats ms) m ;;
    ni <- getNi mt ;; chi <- getChi mt ;; fis <- getFissionXS mt ;;
    tot <- zfor 0 (ms_groups ms) (fun e acc =>
             a <- vget ni e ;; b <- vget fis e ;; Ok (acc [+] a [*] b)) n0 ;;
    zfor 0 (ms_groups ms) (fun e r => c <- vget chi e ;; mset r e m (c [*] tot)) r)
    (mzeros (ms_groups ms) (ms_cells ms)).

(* Mesh.cpp:457-463; col(m) out of range is an Eigen assertion *)
Definition setTotalFluxes (f : mat T) (ms : mesh) : res mesh :=
  l <- zfor 0 (ms_cells ms) (fun m l =>
         if inb m (mcols f)
         then upd_mat (set_totflux (mkvec (mrows f) (fun i => mat_at f i m))) m l
         else UB "Eigen column index") (ms_mats ms) ;;
  Ok (with_mats ms l).
(* Mesh.cpp:465-480 *)
Definition getTotalFluxes (ms : mesh) : res (mat T) :=
  zfor 0 (ms_cells ms) (fun m r =>
    mt <- lget (ms_mats ms) m ;;
    if vlen (mt_totflux mt) =? 0 then Ok r
    else zfor 0 (ms_groups ms) (fun i r => x <- vget (mt_totflux mt) i ;; mset r i m x) r)
    (mzeros (ms_groups ms) (ms_cells ms)).

End Mesh.
Arguments material : clear implicits.
Arguments mesh : clear implicits.
