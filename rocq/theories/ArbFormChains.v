(* The figures: what the operations on active tails do to their ends and to their edges. *)
From Verif Require Import Base Units Outcome Scan90Spec Poly90Spec Poly90Model GeoSpec IvlModel RectModel SegModel PolySpec PolyModel ScanBaseModel SnapModel SnapSpec SnapLoops ArbSpec ArbOrder ArbSums ArbModel ArbSetModel ArbFormSpec ArbFormModel.
From Coq Require Import Sorting.Permutation Arith.

(* ---------- permutations by counting ---------- *)
Section counting.
  Context {A : Type} (dec : forall a b : A, {a = b} + {a <> b}).
  Definition occ (x a : A) : nat := if dec a x then 1%nat else 0%nat.
  Definition cnt (x : A) (l : list A) : nat := count_occ dec l x.
  Lemma cnt_cons x a l : cnt x (a :: l) = (occ x a + cnt x l)%nat.
  Proof. unfold cnt, occ. cbn [count_occ]. destruct (dec a x); reflexivity. Qed.
  Lemma cnt_nil x : cnt x [] = 0%nat.
  Proof. reflexivity. Qed.
  Lemma cnt_app x l m : cnt x (l ++ m) = (cnt x l + cnt x m)%nat.
  Proof. apply count_occ_app. Qed.
  Lemma perm_cnt l m : Permutation l m <-> forall x, cnt x l = cnt x m.
  Proof. apply Permutation_count_occ. Qed.
End counting.
Lemma pp_dec (a b : point * point) : {a = b} + {a <> b}.
Proof. decide equality; apply pt_dec. Qed.
Definition aent : Type := (point * Z * nat)%type.
Lemma ae_dec (a b : aent) : {a = b} + {a <> b}.
Proof. repeat decide equality. Qed.
Ltac pcount dec :=
  apply (perm_cnt dec); let x := fresh "x" in intros x;
  repeat match goal with
  | H : Permutation _ _ |- _ => let K := fresh in pose proof (proj1 (perm_cnt dec _ _) H x) as K; clear H
  end;
  repeat rewrite ?(cnt_app dec), ?(cnt_cons dec), ?(cnt_nil dec) in *; cbn [app] in *; repeat rewrite ?(cnt_app dec), ?(cnt_cons dec), ?(cnt_nil dec) in *; lia.

(* ---------- polylines ---------- *)
Lemma pteq_iff p q : pt_eqb p q = true <-> p = q.
Proof. destruct p as [a b], q as [c d]. unfold pt_eqb. cbn [px py]. rewrite andb_true_iff, !Z.eqb_eq. split; [intros [-> ->]; reflexivity|intros K; injection K; auto]. Qed.
Definition P0 : point := mk_pt 0 0.
Definition first (l : list point) : point := hd P0 l.
Definition lastp (l : list point) : point := last l P0.
Lemma last_snoc l p : lastp (l ++ [p]) = p.
Proof. apply last_last. Qed.
Lemma last_cons p l : l <> [] -> lastp (p :: l) = lastp l.
Proof. destruct l; [congruence|reflexivity]. Qed.
Lemma last_app a b : b <> [] -> lastp (a ++ b) = lastp b.
Proof. intros N. induction a as [|x a IH]; [reflexivity|]. cbn [app]. rewrite last_cons; [exact IH|]. destruct a; [exact N|discriminate]. Qed.
Lemma first_app a b : a <> [] -> first (a ++ b) = first a.
Proof. destruct a; [congruence|reflexivity]. Qed.
Lemma pe_cons p l : l <> [] -> path_edges (p :: l) = (p, first l) :: path_edges l.
Proof. destruct l; [congruence|reflexivity]. Qed.
Lemma pe_app a b : a <> [] -> b <> [] -> path_edges (a ++ b) = path_edges a ++ (lastp a, first b) :: path_edges b.
Proof.
  intros A B. induction a as [|x a IH]; [congruence|]. destruct a as [|y a].
  - cbn [app]. rewrite pe_cons by exact B. reflexivity.
  - cbn [app]. rewrite (pe_cons x (y :: a ++ b)) by discriminate. rewrite (pe_cons x (y :: a)) by discriminate. rewrite (last_cons x) by discriminate. cbn [app] in IH. rewrite IH by discriminate. reflexivity.
Qed.
Lemma pe_snoc l p : l <> [] -> path_edges (l ++ [p]) = path_edges l ++ [(lastp l, p)].
Proof. intros N. rewrite pe_app by (exact N || discriminate). reflexivity. Qed.
Lemma rev_ne {A : Type} (l : list A) : l <> [] -> rev l <> [].
Proof. intros N K. apply N. rewrite <- (rev_involutive l), K. reflexivity. Qed.
Lemma rev_cases {A : Type} (l : list A) : l <> [] -> exists m x, l = m ++ [x].
Proof. intros N. destruct (exists_last N) as [m [x E]]. exists m, x. exact E. Qed.
Lemma push_front_ok p l : l <> [] -> first l <> p -> push_front p l = p :: l.
Proof.
  intros N F. destruct l as [|q [|r l]]; [congruence|reflexivity|]. cbn [push_front]. destruct (pt_eqb q p) eqn:Q; [|reflexivity]. apply pteq_iff in Q. exfalso. apply F. exact Q.
Qed.
Lemma push_back_ok p l : l <> [] -> lastp l <> p -> push_back p l = l ++ [p].
Proof.
  intros N F. destruct (rev_cases l N) as [m [x ->]]. rewrite last_snoc in F. unfold push_back. rewrite rev_app_distr. cbn [rev app]. rewrite push_front_ok; [|discriminate|exact F]. cbn [rev]. rewrite rev_involutive. reflexivity.
Qed.
Lemma splice_ok a b : a <> [] -> b <> [] -> lastp a <> first b -> splice a b = Ok (a ++ b).
Proof.
  intros A B F. destruct (rev_cases a A) as [m [x ->]]. rewrite last_snoc in F. unfold splice. rewrite rev_app_distr. cbn [rev app]. destruct b as [|y b]; [congruence|]. destruct (pt_eqb x y) eqn:Q; [|reflexivity].
  apply pteq_iff in Q. exfalso. apply F. exact Q.
Qed.

(* ---------- ends and edges ---------- *)
Definition ids (c : chain) : list nat := [ch_head c; ch_tail c].
Definition ends (c : chain) : list aent := [(first (ch_pts c), -1, ch_head c); (lastp (ch_pts c), 1, ch_tail c)].
Definition ch_edges (c : chain) : list (point * point) := path_edges (ch_pts c) ++ flat_map path_edges (ch_holes c).
Definition gp_edges (g : gpoly) : list (point * point) := flat_map path_edges (rings g).
Definition T (st : fstate) : list (point * point) := flat_map ch_edges (f_chains st) ++ flat_map gp_edges (f_out st).
Definition dirq (q : point) (c : Z) (p : point) : point * point := if c =? -1 then (p, q) else (q, p).
Definition e_id (a : aent) : nat := snd a.
Definition rings_ok (rs : list (list point)) : Prop := forall r, In r rs -> closed_ring r.

(* op are the open figures, hl closed holes *)
Record inv (st : fstate) (hl : list chain) (op : list chain) (act : list aent) : Prop := mk_inv {
  i_perm : Permutation (f_chains st) (hl ++ op);
  i_act : Permutation (flat_map ends op) act;
  i_nd : NoDup (flat_map ids (f_chains st));
  i_lt : forall t, In t (flat_map ids (f_chains st)) -> (t < f_next st)%nat;
  i_pts : forall c, In c (f_chains st) -> ch_pts c <> [] /\ rings_ok (ch_holes c);
  i_hl : forall c, In c hl -> closed_ring (ch_pts c);
  i_out : forall g, In g (f_out st) -> rings_ok (rings g) }.
Definition Inv (st : fstate) (hl : list chain) (act : list aent) : Prop := exists op, inv st hl op act.

Lemma perm_flat {A B : Type} (f : A -> list B) l m : Permutation l m -> Permutation (flat_map f l) (flat_map f m).
Proof. intros H. apply Permutation_flat_map, H. Qed.
Lemma nodup_perm {A : Type} (l m : list A) : Permutation l m -> NoDup l -> NoDup m.
Proof. apply Permutation_NoDup. Qed.
Lemma owns_iff t c : owns t c = true <-> In t (ids c).
Proof. unfold owns, ids. rewrite orb_true_iff, !Nat.eqb_eq. cbn [In]. intuition congruence. Qed.
Lemma nodup_back {A : Type} (a b : list A) : NoDup (a ++ b) -> NoDup b.
Proof. intros N. induction a as [|x a IH]; [exact N|]. inversion N; subst. apply IH. assumption. Qed.
Lemma take_ok t c l : In c l -> In t (ids c) -> NoDup (flat_map ids l) -> exists r, take_chain t l = Ok (c, r) /\ Permutation l (c :: r).
Proof.
  intros I O N. induction l as [|d l IH]; [destruct I|]. cbn [take_chain]. destruct (owns t d) eqn:Q.
  - apply owns_iff in Q. assert (d = c) as ->; [|exists l; split; [reflexivity|apply Permutation_refl]]. destruct I as [I|I]; [exact I|]. exfalso.
    cbn [flat_map] in N. assert (K : In t (flat_map ids l)) by (apply in_flat_map; exists c; auto). clear - N Q K. induction (ids d) as [|a m IH]; [destruct Q|]. cbn [app] in N. inversion N as [|? ? N1 N2]; subst. destruct Q as [Q|Q]; [|apply IH; assumption]. subst a. apply N1, in_or_app. right. exact K.
  - destruct I as [I|I]; [subst d; apply owns_iff in O; congruence|]. cbn [flat_map] in N. apply nodup_back in N. destruct (IH I N) as [r [E P]]. rewrite E. cbn [obind]. exists (d :: r). split; [reflexivity|].
    eapply Permutation_trans; [apply perm_skip, P|]. apply perm_swap.
Qed.
Lemma take_perm t c l r : Permutation l (c :: r) -> In t (ids c) -> NoDup (flat_map ids l) -> exists r', take_chain t l = Ok (c, r') /\ Permutation r' r.
Proof.
  intros P O N. destruct (take_ok t c l) as [r' [E P']]; [eapply Permutation_in; [apply Permutation_sym, P|left; reflexivity]|exact O|exact N|].
  exists r'. split; [exact E|]. apply Permutation_cons_inv with c. eapply Permutation_trans; [apply Permutation_sym, P'|exact P].
Qed.

Lemma in_perm {A : Type} (a : A) l : In a l -> exists r, Permutation l (a :: r).
Proof. intros H. apply in_split in H as [x [y ->]]. exists (x ++ y). apply Permutation_sym, Permutation_middle. Qed.
(* the figure of an entry *)
Lemma pick st hl op q c t act : inv st hl op ((q, c, t) :: act) -> exists ch op', Permutation op (ch :: op') /\ Permutation (f_chains st) (ch :: hl ++ op') /\
  (c = -1 /\ t = ch_head ch /\ q = first (ch_pts ch) /\ Permutation ((lastp (ch_pts ch), 1, ch_tail ch) :: flat_map ends op') act \/
   c = 1 /\ t = ch_tail ch /\ q = lastp (ch_pts ch) /\ Permutation ((first (ch_pts ch), -1, ch_head ch) :: flat_map ends op') act).
Proof.
  intros I. assert (K : In (q, c, t) (flat_map ends op)) by (eapply Permutation_in; [apply Permutation_sym, (i_act _ _ _ _ I)|left; reflexivity]).
  apply in_flat_map in K as [ch [K1 K2]]. destruct (in_perm ch op K1) as [op' P]. exists ch, op'. split; [exact P|]. split.
  - eapply Permutation_trans; [apply (i_perm _ _ _ _ I)|]. eapply Permutation_trans; [apply Permutation_app_head, P|]. apply Permutation_sym, Permutation_middle.
  - pose proof (i_act _ _ _ _ I) as PA. pose proof (perm_flat ends _ _ P) as PE. cbn [flat_map] in PE. unfold ends at 2 in PE. cbn [app] in PE.
    destruct K2 as [K2|[K2|[]]].
    + left. assert (q = first (ch_pts ch) /\ c = -1 /\ t = ch_head ch) as [E1 [E2 E3]] by (repeat split; congruence). repeat split; try assumption. apply Permutation_cons_inv with (q, c, t).
      rewrite E1, E2, E3. rewrite E1, E2, E3 in PA. eapply Permutation_trans; [apply Permutation_sym, PE|exact PA].
    + right. assert (q = lastp (ch_pts ch) /\ c = 1 /\ t = ch_tail ch) as [E1 [E2 E3]] by (repeat split; congruence). repeat split; try assumption. apply Permutation_cons_inv with (q, c, t).
      rewrite E1, E2, E3. rewrite E1, E2, E3 in PA. eapply Permutation_trans; [apply perm_swap|]. eapply Permutation_trans; [apply Permutation_sym, PE|exact PA].
Qed.
Lemma inv_perm st hl op act act' : inv st hl op act -> Permutation act act' -> inv st hl op act'.
Proof. intros [A B C D E F G] P. constructor; try assumption. eapply Permutation_trans; [exact B|exact P]. Qed.
Lemma Inv_perm st hl act act' : Inv st hl act -> Permutation act act' -> Inv st hl act'.
Proof. intros [op I] P. exists op. apply (inv_perm _ _ _ _ _ I P). Qed.

(* a figure is replaced by another one with the same tails *)
Lemma T_perm l l' nx nx' out x : Permutation (flat_map ch_edges l') (x ++ flat_map ch_edges l) -> Permutation (T (mk_f l' nx' out)) (x ++ T (mk_f l nx out)).
Proof. intros P. unfold T. cbn [f_chains f_out]. rewrite app_assoc. apply Permutation_app_tail, P. Qed.
Lemma chain_eta st : st = mk_f (f_chains st) (f_next st) (f_out st).
Proof. destruct st; reflexivity. Qed.

Lemma push_ok st hl q c t act p : Inv st hl ((q, c, t) :: act) -> q <> p ->
  exists st', push_point t p st = Ok st' /\ Inv st' hl ((p, c, t) :: act) /\ Permutation (T st') (dirq q c p :: T st) /\ f_out st' = f_out st.
Proof.
  intros [op I] NE. destruct (pick _ _ _ _ _ _ _ I) as [ch [op' [PO [PC PK]]]].
  assert (OW : In t (ids ch)) by (unfold ids; cbn [In]; destruct PK as [K|K]; [left|right; left]; symmetry; apply K).
  destruct (take_perm t ch _ _ PC OW (i_nd _ _ _ _ I)) as [r' [E PR]]. unfold push_point. rewrite E. cbn [obind]. eexists. split; [reflexivity|].
  assert (CI : In ch (f_chains st)) by (eapply Permutation_in; [apply Permutation_sym, PC|left; reflexivity]).
  destruct (i_pts _ _ _ _ I ch CI) as [NP RO].
  set (ch' := ch_push t p ch). assert (IDS : ids ch' = ids ch) by reflexivity.
  assert (PI : Permutation (flat_map ids (f_chains st)) (flat_map ids (ch' :: r'))).
  { eapply Permutation_trans; [apply perm_flat, PC|]. cbn [flat_map]. rewrite IDS. apply Permutation_app_head, perm_flat, Permutation_sym, PR. }
  assert (HD : ch_head ch <> ch_tail ch).
  { intros Q. pose proof (nodup_perm _ _ PI (i_nd _ _ _ _ I)) as N. cbn [flat_map] in N. rewrite IDS in N. unfold ids in N. cbn [app] in N. inversion N as [|? ? N1 _]; subst. apply N1. left. symmetry. exact Q. }
  assert (PTS : ch_pts ch' = if c =? -1 then p :: ch_pts ch else ch_pts ch ++ [p]).
  { unfold ch', ch_push. cbn [ch_pts]. destruct PK as [[-> [-> [-> _]]]|[-> [-> [-> _]]]].
    - rewrite Nat.eqb_refl. apply push_front_ok; [exact NP|exact NE].
    - rewrite (proj2 (Nat.eqb_neq _ _)) by congruence. apply push_back_ok; [exact NP|exact NE]. }
  split; [|split].
  - exists (ch' :: op'). constructor; cbn [f_chains f_next f_out].
    + eapply Permutation_trans; [apply perm_skip, PR|]. apply Permutation_middle.
    + cbn [flat_map]. unfold ends at 1. rewrite PTS. change (ch_head ch') with (ch_head ch). change (ch_tail ch') with (ch_tail ch). destruct PK as [[-> [-> [-> PK]]]|[-> [-> [-> PK]]]]; cbn [Z.eqb].
      * cbn [Pos.eqb app]. rewrite last_cons by exact NP. change (first (p :: ch_pts ch)) with p. apply perm_skip. exact PK.
      * cbn [app]. rewrite last_snoc, first_app by exact NP. eapply Permutation_trans; [apply perm_swap|]. apply perm_skip. exact PK.
    + apply (nodup_perm _ _ PI), (i_nd _ _ _ _ I).
    + intros u U. apply (i_lt _ _ _ _ I). eapply Permutation_in; [apply Permutation_sym, PI|exact U].
    + intros d [<-|D].
      * split; [rewrite PTS; destruct (c =? -1); [discriminate|destruct (ch_pts ch); discriminate]|exact RO].
      * apply (i_pts _ _ _ _ I). eapply Permutation_in; [apply Permutation_sym, PC|]. right. eapply Permutation_in; [exact PR|exact D].
    + apply (i_hl _ _ _ _ I).
    + apply (i_out _ _ _ _ I).
  - rewrite (chain_eta st). cbn [f_next f_out]. apply (T_perm _ _ _ _ _ [dirq q c p]). cbn [flat_map].
    pose proof (perm_flat ch_edges _ _ PC) as P1. cbn [flat_map] in P1. pose proof (perm_flat ch_edges _ _ PR) as P2. unfold ch_edges at 1. rewrite PTS. change (ch_holes ch') with (ch_holes ch). unfold ch_edges at 2 in P1.
    destruct PK as [[-> [_ [-> _]]]|[-> [_ [-> _]]]]; unfold dirq; cbn [Z.eqb Pos.eqb]; [rewrite pe_cons by exact NP|rewrite pe_snoc by exact NP]; clear - P1 P2; pcount pp_dec.
  - reflexivity.
Qed.

Lemma nodup_app_not {A : Type} (a b : list A) x : NoDup (a ++ b) -> In x a -> ~ In x b.
Proof.
  intros N I K. induction a as [|y a IH]; [destruct I|]. cbn [app] in N. inversion N as [|? ? N1 N2]; subst. destruct I as [->|I]; [apply N1, in_or_app; right; exact K|apply IH; assumption].
Qed.
Lemma in_ends_id q c t ch : In (q, c, t) (ends ch) -> In t (ids ch).
Proof. intros [K|[K|[]]]; unfold ids; cbn [In]; [left|right; left]; congruence. Qed.
Lemma ids_ends q c t op : In (q, c, t) (flat_map ends op) -> In t (flat_map ids op).
Proof. intros K. apply in_flat_map in K as [ch [K1 K2]]. apply in_flat_map. exists ch. split; [exact K1|apply (in_ends_id q c), K2]. Qed.
Lemma closed_pts t p ch : ch_head ch <> ch_tail ch -> ch_pts ch <> [] -> first (ch_pts ch) <> p -> lastp (ch_pts ch) <> p -> In t (ids ch) ->
  ch_pts (ch_push (other_tail t ch) p (ch_push t p ch)) = p :: ch_pts ch ++ [p].
Proof.
  intros H N F L O. unfold ids in O. cbn [In] in O. unfold ch_push, other_tail. cbn [ch_pts ch_head ch_tail].
  destruct O as [<-|[<-|[]]].
  - rewrite Nat.eqb_refl. rewrite (proj2 (Nat.eqb_neq (ch_tail ch) (ch_head ch))) by congruence. rewrite push_front_ok by assumption. rewrite push_back_ok; [reflexivity|discriminate|]. rewrite last_cons by exact N. exact L.
  - rewrite (proj2 (Nat.eqb_neq (ch_tail ch) (ch_head ch))) by congruence. rewrite Nat.eqb_refl. rewrite push_back_ok by assumption. apply push_front_ok; [destruct (ch_pts ch); discriminate|]. rewrite first_app by exact N. exact F.
Qed.
Lemma gp_edges_mk o hs : gp_edges (mk_gpoly o hs) = path_edges o ++ flat_map path_edges hs.
Proof. reflexivity. Qed.

Lemma join_ok st hl q1 c1 t1 q2 c2 t2 act p solid : Inv st hl ((q1, c1, t1) :: (q2, c2, t2) :: act) -> c2 = - c1 -> q1 <> p -> q2 <> p ->
  exists st' h, join_chains p t1 t2 solid st = Ok (st', h) /\ Permutation (T st') (dirq q1 c1 p :: dirq q2 c2 p :: T st) /\
    (h = None /\ Inv st' hl act \/ solid = false /\ h = Some t1 /\ exists hc, In t1 (ids hc) /\ Inv st' (hc :: hl) act).
Proof.
  intros [op I] CC NE1 NE2. destruct (pick _ _ _ _ _ _ _ I) as [ch [op' [PO [PC PK]]]].
  assert (OW : In t1 (ids ch)) by (unfold ids; cbn [In]; destruct PK as [K|K]; [left|right; left]; symmetry; apply K).
  destruct (take_perm t1 ch _ _ PC OW (i_nd _ _ _ _ I)) as [r' [E PR]]. unfold join_chains. rewrite E. cbn [obind]. cbv iota beta.
  assert (CI : In ch (f_chains st)) by (eapply Permutation_in; [apply Permutation_sym, PC|left; reflexivity]).
  destruct (i_pts _ _ _ _ I ch CI) as [NP RO].
  assert (PI : Permutation (flat_map ids (f_chains st)) (ids ch ++ flat_map ids (hl ++ op'))) by apply (perm_flat ids _ _ PC).
  pose proof (nodup_perm _ _ PI (i_nd _ _ _ _ I)) as ND.
  assert (HD : ch_head ch <> ch_tail ch).
  { intros Q. unfold ids at 1 in ND. cbn [app] in ND. inversion ND as [|? ? N1 _]; subst. apply N1. left. symmetry. exact Q. }
  assert (PRC : forall d, In d r' -> In d (f_chains st)).
  { intros d D. eapply Permutation_in; [apply Permutation_sym, PC|]. right. eapply Permutation_in; [exact PR|exact D]. }
  assert (PIR : Permutation (flat_map ids (f_chains st)) (ids ch ++ flat_map ids r')).
  { eapply Permutation_trans; [exact PI|]. apply Permutation_app_head, perm_flat, Permutation_sym, PR. }
  pose proof (perm_flat ch_edges _ _ PC) as P1. cbn [flat_map] in P1. unfold ch_edges at 2 in P1. pose proof (perm_flat ch_edges _ _ PR) as P2.
  destruct (Nat.eqb t2 (other_tail t1 ch)) eqn:OT.
  - apply Nat.eqb_eq in OT.
    assert (Q12 : (first (ch_pts ch) = q1 /\ lastp (ch_pts ch) = q2 /\ c1 = -1 \/ first (ch_pts ch) = q2 /\ lastp (ch_pts ch) = q1 /\ c1 = 1) /\ Permutation (flat_map ends op') act).
    { unfold other_tail in OT. destruct PK as [[Ec [Et [Eq PK]]]|[Ec [Et [Eq PK]]]].
      - rewrite Et, Nat.eqb_refl in OT. assert (EE : (lastp (ch_pts ch), 1, ch_tail ch) = (q2, c2, t2)).
        { assert (K : In (q2, c2, t2) ((lastp (ch_pts ch), 1, ch_tail ch) :: flat_map ends op')) by (eapply Permutation_in; [apply Permutation_sym, PK|left; reflexivity]).
          destruct K as [K|K]; [exact K|]. exfalso. apply (nodup_app_not _ _ t2 ND); [rewrite OT; right; left; reflexivity|]. rewrite flat_map_app. apply in_or_app. right. apply (ids_ends q2 c2), K. }
        rewrite EE in PK. apply Permutation_cons_inv in PK. split; [left; repeat split; congruence|exact PK].
      - rewrite Et in OT. rewrite (proj2 (Nat.eqb_neq (ch_tail ch) (ch_head ch))) in OT by congruence. assert (EE : (first (ch_pts ch), -1, ch_head ch) = (q2, c2, t2)).
        { assert (K : In (q2, c2, t2) ((first (ch_pts ch), -1, ch_head ch) :: flat_map ends op')) by (eapply Permutation_in; [apply Permutation_sym, PK|left; reflexivity]).
          destruct K as [K|K]; [exact K|]. exfalso. apply (nodup_app_not _ _ t2 ND); [rewrite OT; left; reflexivity|]. rewrite flat_map_app. apply in_or_app. right. apply (ids_ends q2 c2), K. }
        rewrite EE in PK. apply Permutation_cons_inv in PK. split; [right; repeat split; congruence|exact PK]. }
    destruct Q12 as [Q12 PA]. rewrite OT.
    assert (F1 : first (ch_pts ch) <> p) by (destruct Q12 as [[-> _]|[-> _]]; assumption).
    assert (F2 : lastp (ch_pts ch) <> p) by (destruct Q12 as [[_ [-> _]]|[_ [-> _]]]; assumption).
    pose proof (closed_pts t1 p ch HD NP F1 F2 OW) as PTS. set (c' := ch_push (other_tail t1 ch) p (ch_push t1 p ch)) in *.
    assert (PP : Permutation (path_edges (p :: ch_pts ch ++ [p])) (dirq q1 c1 p :: dirq q2 c2 p :: path_edges (ch_pts ch))).
    { rewrite pe_cons by (destruct (ch_pts ch); discriminate). rewrite pe_snoc by exact NP. rewrite first_app by exact NP. rewrite CC. destruct Q12 as [[-> [-> ->]]|[-> [-> ->]]]; unfold dirq; cbn [Z.eqb Z.opp Pos.eqb]; pcount pp_dec. }
    assert (CR : closed_ring (ch_pts c')) by (rewrite PTS; exists p, (ch_pts ch); reflexivity).
    destruct solid.
    + eexists. exists None. split; [reflexivity|]. split; [|left; split; [reflexivity|]].
      * unfold T. cbn [f_chains f_out]. rewrite flat_map_app. cbn [flat_map]. rewrite gp_edges_mk, PTS. change (ch_holes c') with (ch_holes ch). clear - P1 P2 PP. pcount pp_dec.
      * exists op'. constructor; cbn [f_chains f_next f_out].
        -- exact PR.
        -- exact PA.
        -- eapply nodup_back. eapply nodup_perm; [exact PIR|apply (i_nd _ _ _ _ I)].
        -- intros u U. apply (i_lt _ _ _ _ I). eapply Permutation_in; [apply Permutation_sym, PIR|]. apply in_or_app. right. exact U.
        -- intros d D. apply (i_pts _ _ _ _ I), PRC, D.
        -- apply (i_hl _ _ _ _ I).
        -- intros g G. apply in_app_or in G as [G|[<-|[]]]; [apply (i_out _ _ _ _ I), G|]. intros ri RI. cbn [rings In] in RI. destruct RI as [<-|RI]; [exact CR|apply RO, RI].
    + eexists. exists (Some t1). split; [reflexivity|]. split; [|right; split; [reflexivity|split; [reflexivity|]]].
      * unfold T. cbn [f_chains f_out flat_map]. unfold ch_edges at 1. rewrite PTS. change (ch_holes c') with (ch_holes ch). clear - P1 P2 PP. pcount pp_dec.
      * exists c'. split; [exact OW|]. exists op'. constructor; cbn [f_chains f_next f_out].
        -- cbn [app]. apply perm_skip, PR.
        -- exact PA.
        -- cbn [flat_map]. change (ids c') with (ids ch). eapply nodup_perm; [exact PIR|apply (i_nd _ _ _ _ I)].
        -- intros u U. apply (i_lt _ _ _ _ I). eapply Permutation_in; [apply Permutation_sym, PIR|]. exact U.
        -- intros d [<-|D]; [split; [rewrite PTS; discriminate|exact RO]|apply (i_pts _ _ _ _ I), PRC, D].
        -- intros d [<-|D]; [exact CR|apply (i_hl _ _ _ _ I), D].
        -- apply (i_out _ _ _ _ I).
  - apply Nat.eqb_neq in OT.
    assert (K : In (q2, c2, t2) (flat_map ends op')).
    { unfold other_tail in OT. destruct PK as [[Ec [Et [Eq PK]]]|[Ec [Et [Eq PK]]]].
      - rewrite Et, Nat.eqb_refl in OT. assert (K : In (q2, c2, t2) ((lastp (ch_pts ch), 1, ch_tail ch) :: flat_map ends op')) by (eapply Permutation_in; [apply Permutation_sym, PK|left; reflexivity]).
        destruct K as [K|K]; [exfalso; congruence|exact K].
      - rewrite Et in OT. rewrite (proj2 (Nat.eqb_neq (ch_tail ch) (ch_head ch))) in OT by congruence. assert (K : In (q2, c2, t2) ((first (ch_pts ch), -1, ch_head ch) :: flat_map ends op')) by (eapply Permutation_in; [apply Permutation_sym, PK|left; reflexivity]).
        destruct K as [K|K]; [exfalso; congruence|exact K]. }
    apply in_flat_map in K as [d [KD KE]]. destruct (in_perm d op' KD) as [op'' PO2].
    assert (PR2 : Permutation r' (d :: hl ++ op'')).
    { eapply Permutation_trans; [exact PR|]. eapply Permutation_trans; [apply Permutation_app_head, PO2|]. apply Permutation_sym, Permutation_middle. }
    assert (OW2 : In t2 (ids d)) by apply (in_ends_id q2 c2 t2 d KE).
    assert (NDR : NoDup (flat_map ids r')) by (eapply nodup_back; eapply nodup_perm; [exact PIR|apply (i_nd _ _ _ _ I)]).
    destruct (take_perm t2 d _ _ PR2 OW2 NDR) as [r2 [E2 PR3]]. rewrite E2. cbn [obind]. cbv iota beta.
    assert (PIR2 : Permutation (flat_map ids r') (ids d ++ flat_map ids r2)).
    { eapply Permutation_trans; [apply (perm_flat ids _ _ PR2)|]. cbn [flat_map]. apply Permutation_app_head, perm_flat, Permutation_sym, PR3. }
    assert (DI : In d (f_chains st)) by (apply PRC; eapply Permutation_in; [apply Permutation_sym, PR2|left; reflexivity]).
    destruct (i_pts _ _ _ _ I d DI) as [NPD ROD].
    assert (HD2 : ch_head d <> ch_tail d).
    { intros Q. pose proof (nodup_perm _ _ PIR2 NDR) as N. unfold ids at 1 in N. cbn [app] in N. inversion N as [|? ? N1 _]; subst. apply N1. left. symmetry. exact Q. }
    pose proof (perm_flat ch_edges _ _ PR2) as P3. cbn [flat_map] in P3. unfold ch_edges at 2 in P3. pose proof (perm_flat ch_edges _ _ PR3) as P4.
    assert (J : exists c3, ch_join t1 (ch_push t1 p ch) t2 d = Ok c3 /\ ch_pts c3 <> [] /\ ch_holes c3 = ch_holes ch ++ ch_holes d /\
      (forall u, In u (ids c3) -> In u (ids ch ++ ids d)) /\ NoDup (ids c3) /\ Permutation (path_edges (ch_pts c3)) (dirq q1 c1 p :: dirq q2 c2 p :: path_edges (ch_pts ch) ++ path_edges (ch_pts d)) /\
      Permutation (ends c3 ++ flat_map ends op'') act).
    { assert (DIFF : forall u, In u (ids ch) -> In u (ids d) -> False).
      { intros u U V. pose proof (nodup_perm _ _ PIR (i_nd _ _ _ _ I)) as N. apply (nodup_app_not _ _ u N U). eapply Permutation_in; [apply Permutation_sym, PIR2|]. apply in_or_app. left. exact V. }
      pose proof (perm_flat ends _ _ PO2) as P5. cbn [flat_map] in P5. unfold ends at 2 in P5.
      unfold ch_join. cbn [ch_push ch_head ch_tail ch_pts ch_holes]. destruct PK as [[Ec [Et [Eq PK]]]|[Ec [Et [Eq PK]]]].
      - assert (EE : q2 = lastp (ch_pts d) /\ t2 = ch_tail d) by (destruct KE as [KE|[KE|[]]]; [exfalso; assert (-1 = c2) by congruence; lia|split; congruence]).
        destruct EE as [Eq2 Et2]. rewrite Et, Nat.eqb_refl. rewrite Et2, (proj2 (Nat.eqb_neq (ch_tail d) (ch_head d))) by congruence.
        rewrite push_front_ok by (assumption || congruence). rewrite splice_ok; [|exact NPD|discriminate|cbn [first hd]; congruence]. cbn [obind]. eexists. split; [reflexivity|]. cbn [ch_pts ch_holes].
        split; [destruct (ch_pts d); discriminate|]. split; [reflexivity|]. unfold ids. cbn [ch_head ch_tail In app]. split; [intros u [<-|[<-|[]]]; auto 6|]. split.
        + constructor; [|constructor; [intros []|constructor]]. intros [Q|[]]. apply (DIFF (ch_head d)); unfold ids; cbn [In]; auto.
        + split.
          * rewrite pe_app by (exact NPD || discriminate). rewrite pe_cons by exact NP. rewrite CC, Ec, Eq, Eq2. unfold dirq. cbn [Z.eqb Z.opp Pos.eqb first hd]. clear. pcount pp_dec.
          * unfold ends at 1. cbn [ch_pts ch_head ch_tail]. rewrite first_app by exact NPD. rewrite last_app by discriminate. rewrite last_cons by exact NP.
            rewrite Eq2, Et2, CC, Ec in PK. change (- -1) with 1 in PK. clear - PK P5. pcount ae_dec.
      - assert (EE : q2 = first (ch_pts d) /\ t2 = ch_head d) by (destruct KE as [KE|[KE|[]]]; [split; congruence|exfalso; assert (1 = c2) by congruence; lia]).
        destruct EE as [Eq2 Et2]. rewrite Et, (proj2 (Nat.eqb_neq (ch_tail ch) (ch_head ch))) by congruence. rewrite Et2, Nat.eqb_refl.
        rewrite push_back_ok by (assumption || congruence). rewrite splice_ok; [|destruct (ch_pts ch); discriminate|exact NPD|rewrite last_snoc; congruence]. cbn [obind]. eexists. split; [reflexivity|]. cbn [ch_pts ch_holes].
        split; [destruct (ch_pts ch); discriminate|]. split; [reflexivity|]. unfold ids. cbn [ch_head ch_tail In app]. split; [intros u [<-|[<-|[]]]; auto 6|]. split.
        + constructor; [|constructor; [intros []|constructor]]. intros [Q|[]]. apply (DIFF (ch_head ch)); unfold ids; cbn [In]; auto.
        + split.
          * rewrite pe_app by (exact NPD || destruct (ch_pts ch); discriminate). rewrite pe_snoc by exact NP. rewrite last_snoc. rewrite CC, Ec, Eq, Eq2. unfold dirq. cbn [Z.eqb Z.opp Pos.eqb]. clear. pcount pp_dec.
          * unfold ends at 1. cbn [ch_pts ch_head ch_tail]. rewrite last_app by exact NPD. rewrite first_app by (destruct (ch_pts ch); discriminate). rewrite first_app by exact NP.
            rewrite Eq2, Et2, CC, Ec in PK. change (- (1)) with (-1) in PK. clear - PK P5. pcount ae_dec. }
    destruct J as [c3 [J1 [J2 [J3 [J4 [J5 [J6 J7]]]]]]]. rewrite J1. cbn [obind]. eexists. exists None. split; [reflexivity|]. split; [|left; split; [reflexivity|]].
    + unfold T. cbn [f_chains f_out flat_map]. unfold ch_edges at 1. rewrite J3, flat_map_app. clear - P1 P2 P3 P4 J6. pcount pp_dec.
    + exists (c3 :: op''). constructor; cbn [f_chains f_next f_out].
      * eapply Permutation_trans; [apply perm_skip, PR3|]. apply Permutation_middle.
      * exact J7.
      * cbn [flat_map]. pose proof (nodup_perm _ _ PIR2 NDR) as N2.
        pose proof (nodup_perm _ _ PIR (i_nd _ _ _ _ I)) as N1. pose proof (nodup_perm _ _ (Permutation_app_head (ids ch) PIR2) N1) as N3. rewrite app_assoc in N3.
        clear - J4 J5 N3. assert (N4 : NoDup (flat_map ids r2)) by (eapply nodup_back; exact N3). revert J4 J5. generalize (ids c3) as m. induction m as [|u m IH]; intros A B; [exact N4|].
        inversion B; subst. cbn [app]. constructor; [|apply IH; [intros v V; apply A; right; exact V|assumption]]. intros K. apply in_app_or in K as [K|K]; [contradiction|].
        apply (nodup_app_not _ _ u N3); [apply A; left; reflexivity|exact K].
      * intros u U. apply (i_lt _ _ _ _ I). eapply Permutation_in; [apply Permutation_sym, PIR|]. cbn [flat_map] in U. apply in_app_or in U as [U|U].
        -- apply J4 in U. apply in_app_or in U as [U|U]; apply in_or_app; [left; exact U|right]. eapply Permutation_in; [apply Permutation_sym, PIR2|apply in_or_app; left; exact U].
        -- apply in_or_app. right. eapply Permutation_in; [apply Permutation_sym, PIR2|apply in_or_app; right; exact U].
      * intros g [<-|G]; [split; [exact J2|rewrite J3; intros ri RI; apply in_app_or in RI as [RI|RI]; [apply RO, RI|apply ROD, RI]]|].
        apply (i_pts _ _ _ _ I), PRC. eapply Permutation_in; [apply Permutation_sym, PR2|]. right. eapply Permutation_in; [exact PR3|exact G].
      * apply (i_hl _ _ _ _ I).
      * apply (i_out _ _ _ _ I).
Qed.

Lemma add_hole_ok st hc hl q c t h act : Inv st (hc :: hl) act -> In h (ids hc) -> In (q, c, t) act ->
  exists st', add_hole t h st = Ok st' /\ Inv st' hl act /\ Permutation (T st') (T st).
Proof.
  intros [op I] OW IN. pose proof (i_perm _ _ _ _ I) as PC. cbn [app] in PC.
  destruct (take_perm h hc _ _ PC OW (i_nd _ _ _ _ I)) as [r' [E PR]]. unfold add_hole. rewrite E. cbn [obind]. cbv iota beta.
  assert (PIR : Permutation (flat_map ids (f_chains st)) (ids hc ++ flat_map ids r')).
  { eapply Permutation_trans; [apply (perm_flat ids _ _ PC)|]. cbn [flat_map]. apply Permutation_app_head, perm_flat, Permutation_sym, PR. }
  assert (NDR : NoDup (flat_map ids r')) by (eapply nodup_back; eapply nodup_perm; [exact PIR|apply (i_nd _ _ _ _ I)]).
  assert (K : In (q, c, t) (flat_map ends op)) by (eapply Permutation_in; [apply Permutation_sym, (i_act _ _ _ _ I)|exact IN]).
  apply in_flat_map in K as [d [KD KE]]. destruct (in_perm d op KD) as [op' PO].
  assert (PR2 : Permutation r' (d :: hl ++ op')).
  { eapply Permutation_trans; [exact PR|]. eapply Permutation_trans; [apply Permutation_app_head, PO|]. apply Permutation_sym, Permutation_middle. }
  destruct (take_perm t d _ _ PR2 (in_ends_id _ _ _ _ KE) NDR) as [r2 [E2 PR3]]. rewrite E2. cbn [obind]. eexists. split; [reflexivity|].
  set (d' := mk_ch (ch_head d) (ch_tail d) (ch_pts d) (ch_holes d ++ ch_pts hc :: ch_holes hc)).
  assert (PIR2 : Permutation (flat_map ids r') (ids d ++ flat_map ids r2)).
  { eapply Permutation_trans; [apply (perm_flat ids _ _ PR2)|]. cbn [flat_map]. apply Permutation_app_head, perm_flat, Permutation_sym, PR3. }
  assert (HI : In hc (f_chains st)) by (eapply Permutation_in; [apply Permutation_sym, PC|left; reflexivity]).
  assert (PRC : forall g, In g r' -> In g (f_chains st)).
  { intros g G. eapply Permutation_in; [apply Permutation_sym, PC|]. right. eapply Permutation_in; [exact PR|exact G]. }
  assert (DI : In d (f_chains st)) by (apply PRC; eapply Permutation_in; [apply Permutation_sym, PR2|left; reflexivity]).
  destruct (i_pts _ _ _ _ I d DI) as [NPD ROD]. destruct (i_pts _ _ _ _ I hc HI) as [NPH ROH].
  pose proof (perm_flat ch_edges _ _ PC) as P1. cbn [flat_map] in P1. unfold ch_edges at 2 in P1. pose proof (perm_flat ch_edges _ _ PR) as P2.
  pose proof (perm_flat ch_edges _ _ PR2) as P3. cbn [flat_map] in P3. unfold ch_edges at 2 in P3. pose proof (perm_flat ch_edges _ _ PR3) as P4.
  split.
  - exists (d' :: op'). constructor; cbn [f_chains f_next f_out].
    + eapply Permutation_trans; [apply perm_skip, PR3|]. apply Permutation_middle.
    + eapply Permutation_trans; [|apply (i_act _ _ _ _ I)]. change (flat_map ends (d' :: op')) with (flat_map ends (d :: op')). apply perm_flat, Permutation_sym, PO.
    + change (flat_map ids (d' :: r2)) with (ids d ++ flat_map ids r2). eapply nodup_perm; [exact PIR2|exact NDR].
    + intros u U. change (flat_map ids (d' :: r2)) with (ids d ++ flat_map ids r2) in U. apply (i_lt _ _ _ _ I). eapply Permutation_in; [apply Permutation_sym, PIR|]. apply in_or_app. right. eapply Permutation_in; [apply Permutation_sym, PIR2|exact U].
    + intros g [<-|G].
      * split; [exact NPD|]. intros ri RI. cbn [d' ch_holes] in RI. apply in_app_or in RI as [RI|[<-|RI]]; [apply ROD, RI|apply (i_hl _ _ _ _ I); left; reflexivity|apply ROH, RI].
      * apply (i_pts _ _ _ _ I), PRC. eapply Permutation_in; [apply Permutation_sym, PR2|]. right. eapply Permutation_in; [exact PR3|exact G].
    + intros g G. apply (i_hl _ _ _ _ I). right. exact G.
    + apply (i_out _ _ _ _ I).
  - unfold T. cbn [f_chains f_out flat_map]. unfold ch_edges at 1. cbn [d' ch_pts ch_holes]. rewrite flat_map_app. cbn [flat_map]. clear - P1 P2 P3 P4. pcount pp_dec.
Qed.

Lemma new_pair_ok st hl p a b c act : Inv st hl act -> c = mk_ch a b [p] [] -> a <> b -> (f_next st <= a)%nat -> (f_next st <= b)%nat -> (a < S (S (f_next st)))%nat -> (b < S (S (f_next st)))%nat ->
  Inv (mk_f (c :: f_chains st) (S (S (f_next st))) (f_out st)) hl ((p, -1, a) :: (p, 1, b) :: act) /\ Permutation (T (mk_f (c :: f_chains st) (S (S (f_next st))) (f_out st))) (T st).
Proof.
  intros [op I] -> AB A B A' B'. split.
  - exists (mk_ch a b [p] [] :: op). constructor; cbn [f_chains f_next f_out].
    + eapply Permutation_trans; [apply perm_skip, (i_perm _ _ _ _ I)|]. apply Permutation_middle.
    + cbn [flat_map]. unfold ends at 1. cbn [ch_pts ch_head ch_tail first lastp hd last app]. do 2 apply perm_skip. apply (i_act _ _ _ _ I).
    + cbn [flat_map]. unfold ids at 1. cbn [ch_head ch_tail app]. constructor; [|constructor; [|apply (i_nd _ _ _ _ I)]].
      * intros [K|K]; [congruence|]. apply (i_lt _ _ _ _ I) in K. lia.
      * intros K. apply (i_lt _ _ _ _ I) in K. lia.
    + intros u U. cbn [flat_map] in U. unfold ids at 1 in U. cbn [ch_head ch_tail app In] in U. destruct U as [<-|[<-|U]]; [assumption|assumption|]. apply (i_lt _ _ _ _ I) in U. lia.
    + intros g [<-|G]; [split; [discriminate|intros ri []]|apply (i_pts _ _ _ _ I), G].
    + apply (i_hl _ _ _ _ I).
    + apply (i_out _ _ _ _ I).
  - unfold T. cbn [f_chains f_out flat_map]. unfold ch_edges at 1. cbn [ch_pts ch_holes path_edges flat_map app]. apply Permutation_refl.
Qed.
Lemma create_solid_ok st hl p act : Inv st hl act -> exists st' a b, create_pair p true None st = Ok (st', (a, b)) /\ Inv st' hl ((p, -1, a) :: (p, 1, b) :: act) /\ Permutation (T st') (T st).
Proof.
  intros I. unfold create_pair. cbn [obind]. do 3 eexists. split; [reflexivity|]. apply new_pair_ok; [exact I|reflexivity|lia..].
Qed.
Lemma create_hole_ok st hl h p act : Inv st hl act -> match h with None => hl = [] | Some t => exists hc, hl = [hc] /\ In t (ids hc) end ->
  exists st' a b, create_pair p false h st = Ok (st', (a, b)) /\ Inv st' [] ((p, -1, b) :: (p, 1, a) :: act) /\ Permutation (T st') (T st).
Proof.
  intros I H. unfold create_pair. set (a := f_next st). set (b := S a).
  destruct (new_pair_ok st hl p b a (mk_ch b a [p] []) act I eq_refl ltac:(unfold a, b; lia) ltac:(unfold a, b; lia) ltac:(unfold a, b; lia) ltac:(unfold a, b; lia) ltac:(unfold a, b; lia)) as [I1 P1].
  destruct h as [t|].
  - destruct H as [hc [-> H]]. destruct (add_hole_ok _ _ _ p (-1) b t _ I1 H) as [st' [E [I2 P2]]]; [left; reflexivity|]. unfold b, a in *. rewrite E. cbn [obind]. do 3 eexists. split; [reflexivity|]. split; [exact I2|]. eapply Permutation_trans; [exact P2|exact P1].
  - subst hl. cbn [obind]. do 3 eexists. split; [reflexivity|]. split; [exact I1|exact P1].
Qed.
