(** Model of digests and message authentication codes: src/builtins/crypto.cc 46-142, src/builtins/crypto_utils.hh 45-74 and
    src/builtins/crypto_openssl3.cc 46-132.  The library's functions are the record [hash_lib]; that they fail is not modelled, nor are keys of 2 GiB
    and more, whose length does not fit [int]. *)
From Coq Require Import String ZArith List Bool.
From Verif Require Import Base ValueModel ResolverModel.
Import ListNotations.
Local Open Scope Z_scope.
Local Open Scope list_scope.

Inductive hash := Md5 | Sha1 | Sha256 | Sha512.
(** EVP_Digest* and HMAC of OpenSSL: octets of the digest of the data, and of the code for a key and data. *)
Record hash_lib := { h_digest : hash -> str -> str; h_hmac : hash -> str -> str -> str }.

(** crypto_utils.hh 45-56 [to_hex]. *)
Definition hex_chars : str := $"0123456789abcdef".
Definition to_hex (s : str) : str :=
  flat_map (fun c => [nth (Z.to_nat (Z.land (Z.shiftr c 4) 15)) hex_chars 0; nth (Z.to_nat (Z.land c 15)) hex_chars 0]) s.
(** crypto_utils.hh 60-74 [hmac_equal_impl]. *)
Fixpoint differences (a b : str) (result : Z) : Z :=
  match a, b with
  | x :: a', y :: b' => differences a' b' (Z.lor result (Z.lxor x y))
  | _, _ => result
  end.
Definition macs_equal (a b : str) : bool := if Nat.eqb (length a) (length b) then differences a b 0 =? 0 else false.

Section Crypto.
Variable L : hash_lib.
(** crypto_openssl3.cc 46-127. *)
Definition digest_hex (h : hash) (data : str) : str := to_hex (h_digest L h data).
Definition hmac_hex (h : hash) (key data : str) : str := to_hex (h_hmac L h key data).

(** crypto.cc 46-71: crypto.md5, sha1, sha256. *)
Definition crypto_digest (h : hash) (x : value) : res :=
  match x with VString t => RVal (VString (digest_hex h t)) | _ => RErr EvalTypeError end.
(** 73-86: crypto.hmac.equal. *)
Definition crypto_hmac_equal (mac1 mac2 : value) : res :=
  match mac1, mac2 with
  | VString a, VString b => RVal (if macs_equal a b then VTrue else VFalse)
  | _, _ => RErr EvalTypeError
  end.
(** 88-142: crypto.hmac.md5, sha1, sha256, sha512: the data, then the key. *)
Definition crypto_hmac (h : hash) (x key : value) : res :=
  match x, key with
  | VString t, VString k => RVal (VString (hmac_hex h k t))
  | _, _ => RErr EvalTypeError
  end.
End Crypto.
