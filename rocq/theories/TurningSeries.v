(** The polynomials of the expansion at the turning point up to order 8, normalised. *)
From Coq Require Import QArith List.
Import ListNotations.
Open Scope Q_scope.

Definition ps : list (list Q) := [
  [1 # 1];
  [0; 1 # 5];
  [0; 0; -3 # 35; 0; 0; -1 # 50];
  [-8 # 225; 0; 0; 29 # 1575; 0; 0; 44 # 2625];
  [0; 1436 # 86625; 0; 0; -19 # 1925; 0; 0; -706 # 55125; 0; 0; 1 # 15000];
  [0; 0; -2896 # 170625; 0; 0; 61627 # 9384375; 0; 0; 50542 # 5053125; 0; 0; -111 # 875000];
  [-397688 # 27286875; 0; 0; 642548 # 65690625; 0; 0; -13655249 # 2956078125; 0; 0; -198407227 # 24831056250; 0; 0; 27611 # 165375000; 0; 0; -1 # 11250000];
  [0; 38968232 # 2319384375; 0; 0; -60488 # 7363125; 0; 0; 172850851 # 50253328125; 0; 0; 183777259 # 28217109375; 0; 0; -12097361 # 63669375000; 0; 0; 13 # 49218750];
  [0; 0; -9190506032 # 393158390625; 0; 0; 100587567352 # 14322198515625; 0; 0; -3271195929 # 1237720859375; 0; 0; -174213166966 # 32245885546875; 0; 0; 873354893 # 4345434843750; 0; 0; -8107 # 16537500000; 0; 0; 1 # 15750000000]].
Definition qs : list (list Q) := [
  [];
  [0; 0; -1 # 5];
  [-6 # 35; 0; 0; 2 # 35];
  [0; 58 # 1575; 0; 0; -37 # 1575; 0; 0; 1 # 750];
  [0; 0; -1436 # 86625; 0; 0; 1244 # 86625; 0; 0; -19 # 10500];
  [-5792 # 170625; 0; 0; 5792 # 511875; 0; 0; -272617 # 28153125; 0; 0; 10333 # 5512500; 0; 0; -1 # 375000];
  [0; 1285096 # 65690625; 0; 0; -1521302 # 197071875; 0; 0; 15961672 # 2299171875; 0; 0; -948284 # 530578125; 0; 0; 17 # 2625000];
  [0; 0; -38968232 # 2319384375; 0; 0; 99860534 # 16751109375; 0; 0; -1834373503 # 351773296875; 0; 0; 1023501953 # 620776406250; 0; 0; -8471 # 826875000; 0; 0; 1 # 393750000];
  [-18381012064 # 393158390625; 0; 0; 18381012064 # 1179475171875; 0; 0; -75303624 # 16074296875; 0; 0; 135583389164 # 33418463203125; 0; 0; -2327650348 # 1551941015625; 0; 0; 1070947 # 79586718750; 0; 0; -1 # 112500000]].
