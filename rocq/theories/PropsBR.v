(** * PropsBR: the theorems about [r3d_init_brep] and [r3d_free_brep]. *)
From Coq Require Import ZArith List Bool Lia.
From Verif Require Import Base Lib ModelCommon CommonFacts Model3 ModelBR Spec3 SpecGood SpecBR BrepC Fail3.
Import ListNotations.
Open Scope Z_scope.

(** ** C47.  One entry per connected component, every face of it listed once, and the
    blocks allocated are exactly the blocks freed.  [veq] is the comparison of positions
    in the code; nothing is assumed of it. *)
Theorem C47_init_brep {V} (veq : V -> V -> bool) MX (p : poly V) h fuel :
  wf3 p -> 0 < nv p < MX -> (Z.to_nat (nv p) < fuel)%nat -> fresh h ->
  exists bs h1 roots starts, r3d_init_brep veq MX fuel h p = OK (bs, h1)
  /\ breps_of veq p bs roots starts
  /\ (forall a, hlive h a = true -> hlive h1 a = true)
  /\ exists h2, r3d_free_brep h1 bs = OK h2 /\ forall a, hlive h2 a = hlive h a.
Proof.
  intros W Hn Hf H0. destruct (init_brep_spec veq MX p W h fuel ltac:(lia) Hf H0) as [(_ & H)|(E & _)]; [exact H|lia].
Qed.
Print Assumptions C47_init_brep.

(** With a full buffer the search for the next face ends at [nv = R3D_MAX_VERTS] and then
    reads [edge_marked[R3D_MAX_VERTS]]: C47 is false there. *)
Theorem C47_init_brep_full {V} (veq : V -> V -> bool) MX (p : poly V) h fuel :
  wf3 p -> 0 < nv p -> nv p = MX -> (Z.to_nat (nv p) < fuel)%nat -> fresh h ->
  r3d_init_brep veq MX fuel h p = Err OutOfBounds.
Proof.
  intros W Hn Hm Hf H0. destruct (init_brep_spec veq MX p W h fuel ltac:(lia) Hf H0) as [(E & _)|(_ & H)]; [lia|exact H].
Qed.
Print Assumptions C47_init_brep_full.
(** An empty polyhedron: [vertex_map] has no entries and [vertex_map[0]] is written. *)
Theorem C47_init_brep_empty {V} (veq : V -> V -> bool) MX (p : poly V) h fuel :
  nv p = 0 -> r3d_init_brep veq MX fuel h p = Err OutOfBounds.
Proof. exact (init_brep_empty veq MX p h fuel). Qed.
Print Assumptions C47_init_brep_empty.
Theorem C47_init_brep_any_valid_refuted {V} (veq : V -> V -> bool) (pos : Z -> V) h :
  fresh h -> exists p : poly V, wf3 p /\ 0 < nv p <= 512
    /\ forall fuel, (Z.to_nat 512 < fuel)%nat -> r3d_init_brep veq 512 fuel h p = Err OutOfBounds.
Proof.
  intros H0. exists (tets 128 pos). split; [apply tets_wf; lia|]. split; [cbn; lia|].
  intros fuel Hf. apply C47_init_brep_full; auto; [apply tets_wf; lia|cbn; lia].
Qed.
Print Assumptions C47_init_brep_any_valid_refuted.

(** ** The hypotheses are met, by any number of tetrahedra that fit. *)
Example brep_ok {V} (pos : Z -> V) k : 0 < k < 128 ->
  wf3 (tets k pos) /\ 0 < nv (tets k pos) < 512 /\ fresh (HP (fun a => (0 <=? a) && (a <? 7)) 7).
Proof.
  intros Hk. split; [apply tets_wf; lia|]. split; [cbn -[Z.mul]; lia|].
  intros a Ha. cbn in *. apply andb_true_iff in Ha as (_ & Ha). now apply Z.ltb_lt in Ha.
Qed.
(** two tetrahedra, the second with two coincident corners: two components with 4 and 3
    vertices, and the faces of the second after merging *)
Example brep_run : match r3d_init_brep Z.eqb 16 9 (HP (fun _ => false) 0) (tets 2 (fun v => if v =? 6 then 5 else v)) with
  | OK (bs, h) => (bs_nc bs,
      map (fun c => match bs_br bs c with
        | Some br => (b_nv br, map (fun k => match b_fi br k with
             | Some fc => map (fun i => f_ind fc i) (zrange (f_len fc)) | None => [] end) (zrange (b_nf br)))
        | None => (0, []) end) [0; 1],
      match r3d_free_brep h bs with OK h => Some (map (hlive h) (zrange 30)) | Err _ => None end)
  | Err _ => (0, [], None) end
  = (2, [(4, [[Some 0; Some 1; Some 3]; [Some 0; Some 3; Some 2]; [Some 0; Some 2; Some 1]; [Some 1; Some 2; Some 3]]);
         (3, [[Some 0; Some 1; Some 2]; [Some 0; Some 2; Some 1]; [Some 0; Some 1]; [Some 1; Some 2]])],
     Some (map (fun _ => false) (zrange 30))).
Proof. vm_compute. reflexivity. Qed.
