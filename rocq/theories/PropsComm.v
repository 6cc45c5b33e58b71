(** Properties of the message buffers: C19. *)
From Coq Require Import ZArith NArith List Bool Arith Permutation Reals QArith Lia Lra.
From Verif Require Import Num Outcome ModelMesh ModelPart SpecPart ModelDist SpecDist LemmasDist3 ModelComm SpecComm LemmasComm LemmasComm2.
Import ListNotations.
Open Scope nat_scope.

(** Regions lie inside the buffer, are as large as the largest message, and follow each other. *)
Theorem C19_regions : forall s ngps c k, fits s ngps -> nth_error (comms s) c = Some k ->
  nth_error (snd (layout s ngps)) c = Some (total s k ngps) /\
  (forall i g, nth_error ngps i = Some g -> exists a, starts s ngps c i a /\ (a + capacity s k g <= total s k ngps)%N) /\
  (forall i j g a b, i < j -> nth_error ngps i = Some g -> starts s ngps c i a -> starts s ngps c j b -> (a + capacity s k g <= b)%N).
Proof. exact layout_regions. Qed.
Print Assumptions C19_regions.

Theorem C19_messages_fit : forall (T : Type) (NT : Num T) s c k (d : side) ngp, nth_error (comms s) c = Some k -> d_ngp d = N.to_nat ngp ->
  (N.of_nat (length (message s k d)) <= capacity s k ngp)%N.
Proof. exact (fun T NT => @message_fits T NT). Qed.
Print Assumptions C19_messages_fit.

(** Whatever was in the buffers before and in whatever order the faces write. *)
Theorem C19_exchange : forall (T : Type) (NT : Num T) s ngps c k (msg : nat -> list T) order bufs,
  fits s ngps -> nth_error (comms s) c = Some k ->
  (forall i g, nth_error ngps i = Some g -> (N.of_nat (length (msg i)) <= capacity s k g)%N) ->
  Permutation order (seq 0 (length ngps)) ->
  map (fun b => N.of_nat (length b)) bufs = snd (layout s ngps) ->
  exists bufs', send_all (fst (layout s ngps)) c msg order bufs = Ok bufs' /\
    map (@length T) bufs' = map (@length T) bufs /\ (forall c', c' <> c -> nth_error bufs' c' = nth_error bufs c') /\
    forall i g n, nth_error ngps i = Some g -> (N.of_nat n <= capacity s k g)%N ->
      exists m, receive (fst (layout s ngps)) c i n bufs' = Ok m /\ carries m (msg i) n.
Proof. exact (fun T NT s ngps c k msg order bufs F Hk Hm => exchange_ok s ngps c k msg F Hk Hm order bufs). Qed.
Print Assumptions C19_exchange.

Theorem C19_initial_buffers : forall (T : Type) (NT : Num T) s ngps,
  map (fun b : list T => N.of_nat (length b)) (buffers s ngps) = snd (layout s ngps).
Proof. exact (fun T NT => @buffers_sizes T NT). Qed.
Print Assumptions C19_initial_buffers.

(** The partner of a rank boundary lays out its buffers in the same way. *)
Theorem C19_same_layout : forall (P : Type) (m : mesh P) nr size c p of os (ngp_of : N -> N) s,
  mesh_ok m -> neigh_ok m -> partitioned m nr size c -> (forall r l, (r < nr -> l < size r -> r + nr * l < 2 ^ 32)%N) ->
  (forall l, Permutation (of l) l) -> (forall l, Permutation (os l) l) ->
  forall r l r' l' ks ks' g, (r < nr -> l < size r -> r' < nr -> l' < size r' ->
  dist_boundaries m nr size c p of os r l = Ok ks -> dist_boundaries m nr size c p of os r' l' = Ok ks' ->
  In g ks -> k_ex g = (r', l') -> exists g', In g' ks' /\ k_ex g' = (r, l) /\
    layout s (map (fun b => ngp_of (b_p b)) (k_faces g')) = layout s (map (fun b => ngp_of (b_p b)) (k_faces g)) /\
    forall i b b', nth_error (k_faces g) i = Some b -> nth_error (k_faces g') i = Some b' ->
      (b_ein b', b_fin b') = (b_eex b, b_fex b) /\ (b_eex b', b_fex b') = (b_ein b, b_fin b))%N.
Proof.
  intros P m nr size c p of os ngp_of s H1 H2 H3 H4 H5 H6 r l r' l' ks ks' g A B A' B' E E' Hg He.
  destruct (dist_boundaries_pair m nr size c p of os H1 H2 H3 H4 H5 H6 r l r' l' ks ks' g A B A' B' E E' Hg He) as (g' & G1 & G2 & G3).
  exists g'. split; [exact G1|]. split; [exact G2|]. rewrite G3. split.
  - f_equal. rewrite map_map. reflexivity.
  - intros i b b' Hb Hb'. rewrite nth_error_map, Hb in Hb'. injection Hb' as <-. split; reflexivity.
Qed.
Print Assumptions C19_same_layout.

(** What the receiver makes of the messages: Gauss point gp of its side is point
    ngp - 1 - gp of the sender's. *)
Theorem C19_barycentre_values : forall s (d : side (T := R)) m, carries m (message s baryctr_coord d) 2 -> m = [d_bary d 0; d_bary d 1].
Proof. exact bary_values. Qed.
Print Assumptions C19_barycentre_values.

Theorem C19_wet_values : forall s (d : side (T := R)) k m n, k = bound_state \/ k = baryctr_state -> 0 < n -> carries m (message s k d) n ->
  exists x, at_ m 0 = Ok x /\ to_bool x = d_wet d.
Proof. exact wet_values. Qed.
Print Assumptions C19_wet_values.

Theorem C19_state_values : forall s (d : side (T := R)) m q0, carries m (message s bound_state d) (1 + 3 * d_ngp d) ->
  exists q, read_q 1 (d_ngp d) m q0 = Ok q /\ forall var gp, var < 3 -> gp < d_ngp d -> q var gp = d_q d var (d_ngp d - 1 - gp).
Proof. exact state_values. Qed.
Print Assumptions C19_state_values.

Theorem C19_slope_values : forall s (d : side (T := R)),
  (forall m, carries m (message s baryctr_state d) (1 + 3) ->
     forall var, var < 3 -> at_ m (1 + var) = Ok (if d_wet d then d_qbary d var else 0%R)) /\
  (forall m h, carries m (message s baryctr_state d) (1 + 3 + d_ngp d) ->
     exists q, read_hdif (d_ngp d) m h = Ok q /\
       forall gp, gp < d_ngp d -> q 0 gp = (h gp - (if d_wet d then d_h d (d_ngp d - 1 - gp)%nat else 0))%R).
Proof. exact (fun s d => conj (slope_values s d) (hdif_values s d)). Qed.
Print Assumptions C19_slope_values.

Theorem C19_ehdg_init_values : forall (d : side (T := R)) m b0, carries m (message EHDG init_global_prob d) (d_ngp d) ->
  exists b, read_rev 0 (d_ngp d) m b0 = Ok b /\ forall gp, gp < d_ngp d -> b 0 gp = d_bath d (d_ngp d - 1 - gp).
Proof. exact (fun d m b0 => ehdg_values EHDG d m b0 eq_refl). Qed.
Print Assumptions C19_ehdg_init_values.

Theorem C19_ihdg_init_values : forall (d : side (T := R)) m q0 b0, carries m (message IHDG init_global_prob d) (1 + 4 * d_ngp d) ->
  (exists q, read_q 0 (d_ngp d) m q0 = Ok q /\ forall var gp, var < 3 -> gp < d_ngp d -> q var gp = d_q d var (d_ngp d - 1 - gp)) /\
  (exists b, read_rev (3 * d_ngp d) (d_ngp d) m b0 = Ok b /\ forall gp, gp < d_ngp d -> b 0 gp = d_bath d (d_ngp d - 1 - gp)) /\
  (d_owner d = true -> (d_dof d < 2 ^ 32)%N -> exists x, back m = Ok x /\ to_uint x = Ok (d_dof d)).
Proof. exact (fun d m q0 b0 => ihdg_values IHDG d m q0 b0 eq_refl). Qed.
Print Assumptions C19_ihdg_init_values.

(** A dry neighbour's depth arrives as 0, whatever it is. *)
Theorem C19_dry_depth_refuted : exists (d : side (T := R)) h m q,
  carries m (message RKDG baryctr_state d) (1 + 3 + d_ngp d) /\ read_hdif (d_ngp d) m h = Ok q /\ d_ngp d = 1 /\ q 0 0 <> (h 0%nat - d_h d 0%nat)%R.
Proof.
  set (d := Side 1 (fun _ => 0%R) false (fun _ _ => 0%R) (fun _ => 0%R) (fun _ => 0%R) (fun _ => 1%R) false 0%N).
  assert (C : carries (message RKDG baryctr_state d) (message RKDG baryctr_state d) (1 + 3 + d_ngp d)) by (split; [reflexivity | auto]).
  destruct (hdif_values RKDG d _ (fun _ => 0%R) C) as (q & E & Hq).
  exists d, (fun _ => 0%R), (message RKDG baryctr_state d), q. split; [exact C|]. split; [exact E|]. split; [reflexivity|].
  rewrite (Hq 0 ltac:(cbn; lia)). cbn. lra.
Qed.
Print Assumptions C19_dry_depth_refuted.

(** A submesh without neighbours (a single submesh, or an island): undefined behaviour. *)
Theorem C19_no_neighbours_refuted : exists nbuf : list nat, initialize_communication nbuf = UB.
Proof. exact (ex_intro _ [] eq_refl). Qed.
Print Assumptions C19_no_neighbours_refuted.

(** Two faces with 2 and 1 Gauss points, the second one writing first. *)
Definition msg_ex (i : nat) : list Q := match i with 0 => [1; 11; 12; 13; 14; 15; 16]%Q | _ => [0; 21; 22; 23]%Q end.
Example layout_ex : layout RKDG [2; 1; 4]%N = ([[0; 0; 0]; [2; 7; 6]; [4; 11; 11]], [6; 24; 19])%N.
Proof. reflexivity. Qed.
Example exchange_ex :
  (do b <- send_all (fst (layout RKDG [2; 1]%N)) 1 msg_ex [1; 0] (buffers (NT := Num_Q) RKDG [2; 1]%N) ;
   do m <- receive (fst (layout RKDG [2; 1]%N)) 1 1 4 b ; Ok (nth_error b 1, m)) =
  Ok (Some [1; 11; 12; 13; 14; 15; 16; 0; 21; 22; 23]%Q, [0; 21; 22; 23]%Q).
Proof. reflexivity. Qed.
Example fits_ex : fits IHDG [2; 1; 4]%N.
Proof. intros k [<-|[<-|[<-|[]]]]; reflexivity. Qed.
