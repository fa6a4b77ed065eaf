(** * Property C12: binary packing *)
From Coq Require Import ZArith List Bool Arith Lia.
From Verif Require Import Base M_Packing S_Packing L_Packing.
Import ListNotations.

(** Any sequence of values is written as a message of exactly [messageSize] bytes at the cursor; the
    rest of the buffer is unchanged; the cursor ends behind the message; and reading the message from any
    position of any buffer, into any objects of the same types, returns the values. *)
Theorem pack_unpack_round_trip : forall (values : list item) (buf : list Z) (p : nat),
  Forall (fun x => fits (projT1 x) (projT2 x)) values ->
  p + messageSize values <= length buf ->
  exists msg, length msg = messageSize values /\
    packAll values (buf, p) =
      Ok (firstn p buf ++ msg ++ skipn (p + messageSize values) buf, p + messageSize values) /\
    forall old before after, map (@projT1 _ _) old = map (@projT1 _ _) values ->
      unpackAll old (before ++ msg ++ after) (length before) =
        Ok (values, length before + messageSize values).
Proof.
  intros l buf p F H. set (n := messageSize l) in *.
  assert (Lf : length (firstn p buf) = p) by (rewrite firstn_length; lia).
  destruct (packAll_mid l (firstn p buf) (slice p (p + n) buf) (skipn (p + n) buf) F) as (msg & Lm & Pm & Um).
  - rewrite slice_length; lia.
  - exists msg. split; auto. split.
    + rewrite Lf in Pm. rewrite app_length, Lf, Lm in Pm. fold n in Pm. rewrite <- Pm. do 2 f_equal.
      rewrite <- (split_slice p (p + n)) by lia. reflexivity.
    + intros old pre' post' E. rewrite Um by auto. rewrite app_length, Lm. reflexivity.
Qed.

(** a message of all kinds of values, nested *)
Definition ex_items : list item :=
  [ existT _ (TFixed 4) [1; 0; 0; 0]%Z;
    existT _ TString [104; 105]%Z;
    existT _ (TVec TString) [[65]; []; [66; 67]]%Z;
    existT _ (TVec (TVec (TFixed 2))) [[[1; 2]; [3; 4]]; []]%Z ].
Definition ex_old : list item :=
  [ existT _ (TFixed 4) [9; 9; 9; 9]%Z;
    existT _ TString [1; 2; 3; 4; 5]%Z;
    existT _ (TVec TString) [[7]; [7]; [7]; [7]; [7]]%Z;
    existT _ (TVec (TVec (TFixed 2))) []%Z ].
Example pack_ex_hypotheses :
  Forall (fun x => fits (projT1 x) (projT2 x)) ex_items /\ messageSize ex_items = 4 + 10 + 35 + 28 /\
  map (@projT1 _ _) ex_old = map (@projT1 _ _) ex_items.
Proof.
  split; [|split; reflexivity]. repeat constructor; simpl; try lia; repeat constructor; simpl; lia.
Qed.
Example pack_ex :
  (x <- packAll ex_items (repeat 7%Z 80, 2) ;; unpackAll ex_old (fst x) 2)%out = Ok (ex_items, 79).
Proof. vm_compute. reflexivity. Qed.

(** the size announced for a single value is the size of what is written *)
Theorem packedSize_exact : forall (t : ty) (v : den t) (buf : list Z) (p : nat),
  fits t v -> p + packedSize t v <= length buf ->
  exists buf', pack t v (buf, p) = Ok (buf', p + packedSize t v) /\ length buf' = length buf /\
    firstn p buf' = firstn p buf /\ skipn (p + packedSize t v) buf' = skipn (p + packedSize t v) buf.
Proof.
  intros t v buf p F H.
  destruct (pack_unpack_round_trip [existT _ t v] buf p) as (msg & Lm & Pm & _).
  - repeat constructor. exact F.
  - simpl. lia.
  - cbn [packAll foldM projT1 projT2] in Pm. simpl messageSize in *. rewrite Nat.add_0_r in *.
    destruct (pack t v (buf, p)) as [r| |]; cbn [obind] in Pm; try discriminate. inversion Pm; subst r.
    eexists. split; [reflexivity|].
    assert (Lf : length (firstn p buf) = p) by (rewrite firstn_length; lia).
    split; [rewrite !app_length, skipn_length, Lf, Lm; lia|]. split.
    + rewrite firstn_app, Lf, Nat.sub_diag, firstn_firstn, Nat.min_id. simpl. now rewrite app_nil_r.
    + rewrite app_assoc, skipn_app, skipn_all2, app_length, Lf, Lm by (rewrite app_length; lia).
      now rewrite Nat.sub_diag.
Qed.
Example packedSize_ex : packedSize (TVec TString) [[65]; []; [66; 67]]%Z = 35.
Proof. reflexivity. Qed.

Print Assumptions pack_unpack_round_trip.
Print Assumptions packedSize_exact.
