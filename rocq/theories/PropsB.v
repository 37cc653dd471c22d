(** * PropsB: the theorems about [r3d_init_poly]. *)
From Coq Require Import ZArith List Bool Lia.
From Verif Require Import Base Lib ModelCommon Model3 ModelB Spec3 SpecB InitP InitP2 BrepEx.
Import ListNotations.
Open Scope Z_scope.

(** ** C46.  A closed surface with three faces at every vertex gives the graph whose
    faces are the faces described.  [delta] sends a corner to the directed edge from the
    next corner's vertex to its own. *)
Theorem C46_init_poly_three {V} nf nvf fi MX (p : poly V) t vertices n :
  0 <= nf -> closed_surface nf nvf fi n -> 3 <= MX -> 0 < n <= MX ->
  (forall v, 0 <= v < n -> vdeg nf nvf fi v = 3) ->
  exists p', r3d_init_poly MX nf nvf fi p t vertices n = OK (p', 1) /\ nv p' = n
  /\ (forall v, 0 <= v < n -> ps (vb p') v = vertices v)
  /\ links (nb (vb p')) (below n)
  /\ exists delta : Z * Z -> dart,
     (forall c, corner nf nvf c -> isd (below n) (delta c) /\ dsrc (delta c) = vat fi (csucc nvf c)
        /\ dtgt (nb (vb p')) (delta c) = vat fi c /\ fnext (nb (vb p')) (delta c) = delta (cpred nvf c))
     /\ (forall d, isd (below n) d -> exists c, corner nf nvf c /\ delta c = d)
     /\ (forall c c', corner nf nvf c -> corner nf nvf c' -> delta c = delta c' -> c = c')
     /\ (forall c c', corner nf nvf c -> corner nf nvf c' -> same_face (nb (vb p')) (delta c) (delta c') <-> fst c = fst c').
Proof.
  intros H1 CS H2 H3 H4. destruct (ip_three nf nvf fi MX p t vertices n H1 CS H2 H3 H4) as (b & E & P & R).
  exists (PY b n). cbn [nv vb]. do 3 (split; auto). split; [exact (out_links nf nvf fi n CS b R)|].
  exists (cdart nvf fi b). split; [|split; [|split]].
  - intros c Hc. split; [exact (cdart_isd nf nvf fi n CS b R c Hc)|]. split; [reflexivity|].
    split; [exact (cdart_tgt nf nvf fi n CS b R c Hc)|exact (cdart_next nf nvf fi n CS b R c Hc)].
  - exact (cdart_surj nf nvf fi n CS b R).
  - intros c c'. exact (cdart_inj nf nvf fi n CS b R c c').
  - intros c c'. exact (cdart_face nf nvf fi n CS b R c c').
Qed.
Print Assumptions C46_init_poly_three.

(** If in addition two faces share at most one edge the result is a valid polyhedron. *)
Theorem C46_init_poly_three_valid {V} nf nvf fi MX (p : poly V) t vertices n :
  0 <= nf -> closed_surface nf nvf fi n -> share_one nf nvf fi -> 3 <= MX -> 0 < n <= MX ->
  (forall v, 0 <= v < n -> vdeg nf nvf fi v = 3) ->
  exists p', r3d_init_poly MX nf nvf fi p t vertices n = OK (p', 1) /\ wf3 p'.
Proof.
  intros H1 CS SH H2 H3 H4. destruct (ip_three nf nvf fi MX p t vertices n H1 CS H2 H3 H4) as (b & E & P & R).
  exists (PY b n). split; auto. split; [cbn; lia|]. split; [exact (out_links nf nvf fi n CS b R)|exact (out_simple nf nvf fi n CS b R SH)].
Qed.
Print Assumptions C46_init_poly_three_valid.

(** Too many vertices: 0, and the target is as it was. *)
Theorem C46_init_poly_too_many {V} nf nvf fi MX (p : poly V) t vertices n :
  MX < n -> r3d_init_poly MX nf nvf fi p t vertices n = OK (p, 0).
Proof. exact (ip_many nf nvf fi MX p t vertices n). Qed.
Print Assumptions C46_init_poly_too_many.
(** A vertex on fewer than three faces: 0, and the target is empty. *)
Theorem C46_init_poly_too_few_faces {V} nf nvf fi MX (p : poly V) t vertices n :
  0 <= nf -> (forall f, 0 <= f < nf -> 0 <= nvf f) -> (forall c, corner nf nvf c -> 0 <= vat fi c < MX) ->
  3 <= MX -> 0 <= n <= MX -> (exists v, 0 <= v < n /\ vdeg nf nvf fi v < 3) ->
  r3d_init_poly MX nf nvf fi p t vertices n = OK (PY (vb p) 0, 0).
Proof. exact (ip_low nf nvf fi MX p t vertices n). Qed.
Print Assumptions C46_init_poly_too_few_faces.

(** ** C58: false as stated.  When the duplicates do not fit, the call returns 0 with the
    vertex count it had reached. *)
Theorem C58_init_poly_too_big {V} nf nvf fi MX (p : poly V) t vertices n :
  0 <= nf -> (forall f, 0 <= f < nf -> 0 <= nvf f) -> (forall c, corner nf nvf c -> 0 <= vat fi c < MX) ->
  3 <= MX -> 0 <= n <= MX -> (forall v, 0 <= v < n -> 3 <= vdeg nf nvf fi v) ->
  ~ (0 < n /\ forall v, 0 <= v < n -> vdeg nf nvf fi v = 3) -> MX < st (vdeg nf nvf fi) n ->
  exists j, 0 <= j < n /\ st (vdeg nf nvf fi) j <= MX < st (vdeg nf nvf fi) (j + 1)
    /\ r3d_init_poly MX nf nvf fi p t vertices n = OK (PY (vb p) (st (vdeg nf nvf fi) j), 0).
Proof. exact (ip_toobig nf nvf fi MX p t vertices n). Qed.
Print Assumptions C58_init_poly_too_big.
Theorem C58_init_poly_rejected_empty_refuted {V} (p : poly V) t vertices :
  exists nf nvf fi n p', 0 <= nf /\ closed_surface nf nvf fi n /\ 0 < n <= 512
    /\ r3d_init_poly 512 nf nvf fi p t vertices n = OK (p', 0) /\ vb p' = vb p /\ 0 < nv p'.
Proof.
  destruct bip_ok as (A & B & C & D). pose proof (cs_chk_ok _ _ _ _ A) as CS. pose proof (deg_chk_ok _ _ _ _ _ B) as DG.
  destruct (C58_init_poly_too_big 172 bipnvf (bipfi 86) 512 p t vertices 88) as (j & Hj & Hb & E); try lia.
  - intros f Hf. unfold bipnvf. lia.
  - intros c Hc. pose proof (cs_rng _ _ _ _ CS c Hc). lia.
  - intros v Hv. apply Z.leb_le, DG, Hv.
  - intros (_ & H). specialize (H 0 ltac:(lia)). lia.
  - exists 172, bipnvf, (bipfi 86), 88. eexists. split; [lia|]. split; [exact CS|]. split; [lia|]. split; [exact E|]. split; auto. cbn [nv].
    assert (j <> 0) by (intros ->; change (0 + 1) with (0 + 1) in Hb; rewrite st_succ, C in Hb by lia; change (st (vdeg 172 bipnvf (bipfi 86)) 0) with 0 in Hb; lia).
    pose proof (st_mono (vdeg 172 bipnvf (bipfi 86)) 88 (fun v _ => vdeg_nonneg _ _ _ v) 1 j ltac:(lia) ltac:(lia)) as M.
    change 1 with (0 + 1) in M. rewrite st_succ, C in M by lia. change (st (vdeg 172 bipnvf (bipfi 86)) 0) with 0 in M. lia.
Qed.
Print Assumptions C58_init_poly_rejected_empty_refuted.

(** ** The hypotheses are met: tetrahedron and cube. *)
Example tet_desc : closed_surface (lnf tetF) (lnvf tetF) (lfi tetF) 4 /\ share_one (lnf tetF) (lnvf tetF) (lfi tetF)
  /\ forall v, 0 <= v < 4 -> vdeg (lnf tetF) (lnvf tetF) (lfi tetF) v = 3.
Proof.
  split; [apply cs_chk_ok; vm_compute; reflexivity|]. split; [apply so_chk_ok; vm_compute; reflexivity|].
  intros v Hv. apply Z.eqb_eq. refine (deg_chk_ok _ _ _ 4 (fun d => d =? 3) _ v Hv). vm_compute. reflexivity.
Qed.
Example cube_desc : closed_surface (lnf cubeF) (lnvf cubeF) (lfi cubeF) 8 /\ share_one (lnf cubeF) (lnvf cubeF) (lfi cubeF)
  /\ forall v, 0 <= v < 8 -> vdeg (lnf cubeF) (lnvf cubeF) (lfi cubeF) v = 3.
Proof.
  split; [apply cs_chk_ok; vm_compute; reflexivity|]. split; [apply so_chk_ok; vm_compute; reflexivity|].
  intros v Hv. apply Z.eqb_eq. refine (deg_chk_ok _ _ _ 8 (fun d => d =? 3) _ v Hv). vm_compute. reflexivity.
Qed.
Example missing_face : exists v, 0 <= v < 4 /\ vdeg 3 (lnvf tetF) (lfi tetF) v < 3.
Proof. exists 3. vm_compute. split; [split; congruence|reflexivity]. Qed.
