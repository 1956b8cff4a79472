(** A numbering of the variables: not a part of the code, which numbers terms by their
    addresses; it shows that the numbers assumed in Parse.v (config) exist. *)
From Coq Require Import ZArith QArith List Bool Lia.
From Verif Require Import Base Kind Ints Str Literal Term TermProofs.
Import ListNotations.
Open Scope Z_scope.

(** ** Streams of numbers as one number *)
Fixpoint pos_bits (p : positive) : list bool :=
  match p with xH => [false] | xO q => true :: false :: pos_bits q | xI q => true :: true :: pos_bits q end.
Definition z_bits (z : Z) : list bool :=
  match z with Z0 => [false] | Zpos p => true :: false :: pos_bits p | Zneg p => true :: true :: pos_bits p end.
Fixpoint bits_pos (b : list bool) : option (positive * list bool) :=
  match b with
  | false :: r => Some (xH, r)
  | true :: c :: r => match bits_pos r with Some (p, r') => Some (if c then xI p else xO p, r') | None => None end
  | _ => None
  end.
Definition bits_z (b : list bool) : option (Z * list bool) :=
  match b with
  | false :: r => Some (0, r)
  | true :: c :: r => match bits_pos r with Some (p, r') => Some (if c then Zneg p else Zpos p, r') | None => None end
  | _ => None
  end.
Fixpoint stream_bits (l : list Z) : list bool := match l with [] => [] | z :: r => z_bits z ++ stream_bits r end.
Fixpoint bits_stream (n : nat) (b : list bool) : list Z :=
  match n with
  | O => []
  | S m => match bits_z b with Some (z, r) => z :: bits_stream m r | None => [] end
  end.
Fixpoint bits_num (b : list bool) : positive := match b with [] => xH | false :: r => xO (bits_num r) | true :: r => xI (bits_num r) end.
Fixpoint num_bits (p : positive) : list bool := match p with xH => [] | xO q => false :: num_bits q | xI q => true :: num_bits q end.

Lemma pos_bits_ok p r : bits_pos (pos_bits p ++ r) = Some (p, r).
Proof. induction p as [p IH|p IH|]; cbn [pos_bits app bits_pos]; rewrite ?IH; reflexivity. Qed.
Lemma z_bits_ok z r : bits_z (z_bits z ++ r) = Some (z, r).
Proof. destruct z; cbn [z_bits app bits_z]; rewrite ?pos_bits_ok; reflexivity. Qed.
Lemma z_bits_len z : (1 <= length (z_bits z))%nat.
Proof. destruct z; cbn; lia. Qed.
Lemma stream_bits_ok l : forall n, (length (stream_bits l) <= n)%nat -> bits_stream n (stream_bits l) = l.
Proof.
  induction l as [|z l IH]; intros n H; cbn [stream_bits] in *; [destruct n; reflexivity|]. rewrite app_length in H. pose proof (z_bits_len z).
  destruct n as [|n]; [lia|]. cbn [bits_stream]. rewrite z_bits_ok. rewrite IH; [reflexivity | lia].
Qed.
Lemma bits_num_ok b : num_bits (bits_num b) = b.
Proof. induction b as [|[] b IH]; cbn [bits_num num_bits]; rewrite ?IH; reflexivity. Qed.
Definition stream_num (l : list Z) : Z := Zpos (bits_num (stream_bits l)).
Definition num_stream (z : Z) : list Z := match z with Zpos p => let b := num_bits p in bits_stream (length b) b | _ => [] end.
Lemma stream_num_ok l : num_stream (stream_num l) = l.
Proof. unfold num_stream, stream_num. rewrite bits_num_ok. now apply stream_bits_ok. Qed.

(** ** Terms as streams *)
Definition lit_stream (l : literal) : list Z :=
  match l with
  | LBool b => [0; Z.b2z b]
  | LNum z => [1; z]
  | LDec q => [2; Qnum q; Zpos (Qden q)]
  | LRat q => [3; Qnum q; Zpos (Qden q)]
  | LHex b => [4; bv_size b; bv_val b]
  | LBin b => [5; bv_size b; bv_val b]
  | LStr s => 6 :: Z.of_nat (length s) :: s
  end.
Definition stream_lit (r : list Z) : option (literal * list Z) :=
  match r with
  | tag :: a :: r =>
      if tag =? 0 then Some (LBool (a =? 1), r) else if tag =? 1 then Some (LNum a, r)
      else if tag =? 6 then Some (LStr (firstn (Z.to_nat a) r), skipn (Z.to_nat a) r)
      else match r with
           | b :: r => if tag =? 2 then Some (LDec (Qmake a (Z.to_pos b)), r) else if tag =? 3 then Some (LRat (Qmake a (Z.to_pos b)), r)
                       else if tag =? 4 then Some (LHex (mkBV a b), r) else Some (LBin (mkBV a b), r)
           | [] => None
           end
  | _ => None
  end.
Definition kind_z (k : kind) : Z := Z.of_N (kind_num k).
Definition z_kind (z : Z) : kind := nth (Z.to_nat z) all_kinds K_NONE.
Fixpoint term_stream (t : term) : list Z :=
  match t with
  | Sym k i => [0; kind_z k; i]
  | Lit l => 1 :: lit_stream l
  | Node k cs => 2 :: kind_z k :: Z.of_nat (length cs) :: flat_map term_stream cs
  end.
Fixpoint stream_term (n : nat) (r : list Z) : option (term * list Z) :=
  match n with
  | O => None
  | S m =>
      match r with
      | tag :: r1 =>
          if tag =? 1 then match stream_lit r1 with Some (l, r2) => Some (Lit l, r2) | None => None end
          else match r1 with
               | k :: a :: r2 =>
                   if tag =? 0 then Some (Sym (z_kind k) a, r2)
                   else
                     (fix go (c : nat) (r : list Z) (acc : list term) : option (term * list Z) :=
                        match c with
                        | O => Some (Node (z_kind k) (rev acc), r)
                        | S c' => match stream_term m r with Some (t, r') => go c' r' (t :: acc) | None => None end
                        end) (Z.to_nat a) r2 []
               | _ => None
               end
      | [] => None
      end
  end.
Lemma kind_z_ok k : z_kind (kind_z k) = k.
Proof. unfold z_kind, kind_z. replace (Z.to_nat (Z.of_N (kind_num k))) with (N.to_nat (kind_num k)) by lia. apply kind_of_num. Qed.
Lemma lit_stream_ok l r : stream_lit (lit_stream l ++ r) = Some (l, r).
Proof.
  destruct l as [b|z|[a b]|[a b]|[a b]|[a b]|s]; cbn [lit_stream app stream_lit Z.eqb Pos.eqb Qnum Qden bv_size bv_val Z.to_pos]; try reflexivity.
  - destruct b; reflexivity.
  - rewrite Nat2Z.id. rewrite firstn_app, skipn_app, firstn_all, skipn_all, Nat.sub_diag. cbn. now rewrite app_nil_r.
Qed.
Lemma term_stream_len t : (1 <= length (term_stream t))%nat.
Proof. destruct t; cbn; lia. Qed.
Lemma term_stream_ok t : forall n r, (length (term_stream t) <= n)%nat -> stream_term n (term_stream t ++ r) = Some (t, r).
Proof.
  induction t as [k i|l|k cs IH] using term_ind2; intros n r H; (destruct n as [|n]; [pose proof (term_stream_len (Sym K_NONE 0)); cbn in H; lia|]).
  - cbn [term_stream app stream_term]. change (0 =? 1) with false. change (0 =? 0) with true. cbv iota. now rewrite kind_z_ok.
  - cbn [term_stream app stream_term]. change (1 =? 1) with true. cbv iota. now rewrite lit_stream_ok.
  - cbn [term_stream app stream_term]. change (2 =? 1) with false. change (2 =? 0) with false. cbv iota. rewrite Nat2Z.id, kind_z_ok.
    cbn [term_stream length] in H.
    assert (X : forall acc r, (fix go (c : nat) (r : list Z) (acc : list term) : option (term * list Z) :=
                        match c with
                        | O => Some (Node k (rev acc), r)
                        | S c' => match stream_term n r with Some (t, r') => go c' r' (t :: acc) | None => None end
                        end) (length cs) (flat_map term_stream cs ++ r) acc = Some (Node k (rev acc ++ cs), r)).
    { assert (L : (length (flat_map term_stream cs) <= n)%nat) by lia. clear H. induction IH as [|c cs Hc _ IHc]; intros acc r0; cbn [length flat_map app] in *.
      - now rewrite app_nil_r.
      - rewrite app_length in L. rewrite <- app_assoc. rewrite Hc by lia. rewrite IHc by lia. cbn [rev]. now rewrite <- app_assoc. }
    apply X.
Qed.

(** ** Variables *)
Definition var_num (n : text) (t : term) : Z := stream_num (Z.of_nat (length n) :: n ++ term_stream t).
Definition num_var (z : Z) : option (text * term) :=
  match num_stream z with
  | c :: r => match stream_term (length r) (skipn (Z.to_nat c) r) with Some (t, _) => Some (firstn (Z.to_nat c) r, t) | None => None end
  | [] => None
  end.
Lemma var_num_ok n t : num_var (var_num n t) = Some (n, t).
Proof.
  unfold num_var, var_num. rewrite stream_num_ok, Nat2Z.id. rewrite firstn_app, skipn_app, firstn_all, skipn_all, Nat.sub_diag. cbn [firstn skipn app]. rewrite app_nil_r.
  rewrite <- (app_nil_r (term_stream t)) at 2. rewrite term_stream_ok; [reflexivity|]. rewrite app_length. lia.
Qed.
