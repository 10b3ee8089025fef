(** src/Quadrature.cc.  Exact real arithmetic with pi, sqrt, sin and cos exact. *)
From Coq Require Import Reals.
From Verif Require Import Prelude MeshModel TychoModel.

(** Lines 48-78: the tables s_n*, s_w*, each literal times 10^16 (all have 16 decimals; the
    rounding of the literals to double is not modelled), and the switch, lines 158-221. *)
Local Open Scope Z_scope.
Definition gaussTables : list (nat * (list Z * list Z)) := [
  (2%nat, ([(-5773502691896257); 5773502691896257],
    [10000000000000000; 10000000000000000]));
  (4%nat, ([(-8611363115940526); (-3399810435848563); 3399810435848563; 8611363115940526],
    [3478548451374540; 6521451548625462; 6521451548625462; 3478548451374540]));
  (6%nat, ([(-9324695142031521); (-6612093864662645); (-2386191860831969); 2386191860831969; 6612093864662645; 9324695142031521],
    [1713244923791694; 3607615730481388; 4679139345726918; 4679139345726918; 3607615730481388; 1713244923791694]));
  (8%nat, ([(-9602898564975362); (-7966664774136267); (-5255324099163290); (-1834346424956498); 1834346424956498; 5255324099163290; 7966664774136267; 9602898564975362],
    [1012285362903753; 2223810344533751; 3137066458778874; 3626837833783620; 3626837833783620; 3137066458778874; 2223810344533751; 1012285362903753]));
  (10%nat, ([(-9739065285171717); (-8650633666889845); (-6794095682990244); (-4333953941292472); (-1488743389816312); 1488743389816312; 4333953941292472; 6794095682990244; 8650633666889845; 9739065285171717],
    [666713443086850; 1494513491505808; 2190863625159831; 2692667193099972; 2955242247147539; 2955242247147539; 2692667193099972; 2190863625159831; 1494513491505808; 666713443086850]));
  (12%nat, ([(-9815606342467192); (-9041172563704748); (-7699026741943047); (-5873179542866174); (-3678314989981802); (-1252334085114689); 1252334085114689; 3678314989981802; 5873179542866174; 7699026741943047; 9041172563704748; 9815606342467192],
    [471753363865124; 1069393259953184; 1600783285433459; 2031674267230659; 2334925365383547; 2491470458134026; 2491470458134026; 2334925365383547; 2031674267230659; 1600783285433459; 1069393259953184; 471753363865124]));
  (14%nat, ([(-9862838086968124); (-9284348836635735); (-8272013150697650); (-6872929048116855); (-5152486363581541); (-3191123689278897); (-1080549487073437); 1080549487073437; 3191123689278897; 5152486363581541; 6872929048116855; 8272013150697650; 9284348836635735; 9862838086968124],
    [351194603317524; 801580871597607; 1215185706879027; 1572031671581933; 1855383974779377; 2051984637212955; 2152638534631576; 2152638534631576; 2051984637212955; 1855383974779377; 1572031671581933; 1215185706879027; 801580871597607; 351194603317524]));
  (16%nat, ([(-9894009349916499); (-9445750230732326); (-8656312023878318); (-7554044083550030); (-6178762444026438); (-4580167776572274); (-2816035507792589); (-950125098376375); 950125098376375; 2816035507792589; 4580167776572274; 6178762444026438; 7554044083550030; 8656312023878318; 9445750230732326; 9894009349916499],
    [271524594117528; 622535239386485; 951585116824923; 1246289712555341; 1495959888165768; 1691565193950028; 1826034150449238; 1894506104550687; 1894506104550687; 1826034150449238; 1691565193950028; 1495959888165768; 1246289712555341; 951585116824923; 622535239386485; 271524594117528]));
  (18%nat, ([(-9915651684209309); (-9558239495713977); (-8926024664975558); (-8037049589725231); (-6916870430603532); (-5597708310739475); (-4117511614628426); (-2518862256915055); (-847750130417353); 847750130417353; 2518862256915055; 4117511614628426; 5597708310739475; 6916870430603532; 8037049589725231; 8926024664975558; 9558239495713977; 9915651684209309],
    [216160135264830; 497145488949704; 764257302548894; 1009420441062870; 1225552067114782; 1406429146706505; 1546846751262652; 1642764837458328; 1691423829631436; 1691423829631436; 1642764837458328; 1546846751262652; 1406429146706505; 1225552067114782; 1009420441062870; 764257302548894; 497145488949704; 216160135264830]));
  (20%nat, ([(-9931285991850949); (-9639719272779138); (-9122344282513259); (-8391169718222188); (-7463319064601508); (-6360536807265150); (-5108670019508271); (-3737060887154195); (-2277858511416451); (-765265211334973); 765265211334973; 2277858511416451; 3737060887154195; 5108670019508271; 6360536807265150; 7463319064601508; 8391169718222188; 9122344282513259; 9639719272779138; 9931285991850949],
    [176140071391515; 406014298003864; 626720483341095; 832767415767052; 1019301198172402; 1181945319615184; 1316886384491767; 1420961093183822; 1491729864726040; 1527533871307260; 1527533871307260; 1491729864726040; 1420961093183822; 1316886384491767; 1181945319615184; 1019301198172402; 832767415767052; 626720483341095; 406014298003864; 176140071391515]));
  (22%nat, ([(-9942945854823994); (-9700604978354287); (-9269567721871740); (-8658125777203002); (-7878168059792081); (-6944872631866827); (-5876404035069116); (-4693558379867570); (-3419358208920842); (-2078604266882213); (-697392733197222); 697392733197222; 2078604266882213; 3419358208920842; 4693558379867570; 5876404035069116; 6944872631866827; 7878168059792081; 8658125777203002; 9269567721871740; 9700604978354287; 9942945854823994],
    [146279952982719; 337749015848153; 522933351526825; 697964684245201; 859416062170677; 1004141444428810; 1129322960805393; 1232523768105125; 1311735047870624; 1365414983460153; 1392518728556321; 1392518728556321; 1365414983460153; 1311735047870624; 1232523768105125; 1129322960805393; 1004141444428810; 859416062170677; 697964684245201; 522933351526825; 337749015848153; 146279952982719]));
  (24%nat, ([(-9951872199970214); (-9747285559713095); (-9382745520027328); (-8864155270044011); (-8200019859739029); (-7401241915785544); (-6480936519369755); (-5454214713888396); (-4337935076260451); (-3150426796961634); (-1911188674736163); (-640568928626056); 640568928626056; 1911188674736163; 3150426796961634; 4337935076260451; 5454214713888396; 6480936519369755; 7401241915785544; 8200019859739029; 8864155270044011; 9382745520027328; 9747285559713095; 9951872199970214],
    [123412297999860; 285313886289335; 442774388174196; 592985849154367; 733464814110802; 861901615319536; 976186521041139; 1074442701159658; 1155056680537258; 1216704729278036; 1258374563468286; 1279381953467525; 1279381953467525; 1258374563468286; 1216704729278036; 1155056680537258; 1074442701159658; 976186521041139; 861901615319536; 733464814110802; 592985849154367; 442774388174196; 285313886289335; 123412297999860]));
  (26%nat, ([(-9958857011456169); (-9783854459564709); (-9471590666617142); (-9026378619843071); (-8454459427884981); (-7763859488206788); (-6964272604199573); (-6066922930176181); (-5084407148245057); (-4030517551234863); (-2920048394859569); (-1768588203568902); (-592300934293132); 592300934293132; 1768588203568902; 2920048394859569; 4030517551234863; 5084407148245057; 6066922930176181; 6964272604199573; 7763859488206788; 8454459427884981; 9026378619843071; 9471590666617142; 9783854459564709; 9958857011456169],
    [105513726173399; 244178510926323; 379623832943637; 509758252971484; 632740463295749; 746841497656602; 850458943134853; 942138003559144; 1020591610944256; 1084718405285767; 1133618165463197; 1166604434852967; 1183214152792624; 1183214152792624; 1166604434852967; 1133618165463197; 1084718405285767; 1020591610944256; 942138003559144; 850458943134853; 746841497656602; 632740463295749; 509758252971484; 379623832943637; 244178510926323; 105513726173399]));
  (28%nat, ([(-9964424975739544); (-9813031653708728); (-9542592806289382); (-9156330263921321); (-8658925225743951); (-8056413709171791); (-7356108780136318); (-6566510940388650); (-5697204718114017); (-4758742249551183); (-3762515160890787); (-2720616276351780); (-1645692821333808); (-550792898840343); 550792898840343; 1645692821333808; 2720616276351780; 3762515160890787; 4758742249551183; 5697204718114017; 6566510940388650; 7356108780136318; 8056413709171791; 8658925225743951; 9156330263921321; 9542592806289382; 9813031653708728; 9964424975739544],
    [91242825930933; 211321125927716; 329014277823041; 442729347590042; 551073456757166; 652729239669995; 746462142345688; 831134172289013; 905717443930329; 969306579979302; 1021129675780610; 1060557659228466; 1087111922582944; 1100470130164755; 1100470130164755; 1087111922582944; 1060557659228466; 1021129675780610; 969306579979302; 905717443930329; 831134172289013; 746462142345688; 652729239669995; 551073456757166; 442729347590042; 329014277823041; 211321125927716; 91242825930933]));
  (30%nat, ([(-9968934840746495); (-9836681232797472); (-9600218649683075); (-9262000474292743); (-8825605357920527); (-8295657623827684); (-7677774321048262); (-6978504947933158); (-6205261829892429); (-5366241481420199); (-4470337695380892); (-3527047255308781); (-2546369261678899); (-1538699136085835); (-514718425553177); 514718425553177; 1538699136085835; 2546369261678899; 3527047255308781; 4470337695380892; 5366241481420199; 6205261829892429; 6978504947933158; 7677774321048262; 8295657623827684; 8825605357920527; 9262000474292743; 9600218649683075; 9836681232797472; 9968934840746495],
    [79681924961701; 184664683110921; 287847078833228; 387991925696264; 484026728305939; 574931562176186; 659742298821804; 737559747377048; 807558952294198; 868997872010827; 921225222377858; 963687371746439; 995934205867949; 1017623897484052; 1028526528935585; 1028526528935585; 1017623897484052; 995934205867949; 963687371746439; 921225222377858; 868997872010827; 807558952294198; 737559747377048; 659742298821804; 574931562176186; 484026728305939; 387991925696264; 287847078833228; 184664683110921; 79681924961701]))].
Definition gauss (snOrder : nat) : option (list Z * list Z) :=
  option_map snd (find (fun e => Nat.eqb (fst e) snOrder) gaussTables).

Local Open Scope R_scope.
Definition lit (z : Z) : R := IZR z / 10^16.
(** One entry of c_xi, c_eta, c_mu, c_w. *)
Record dir := mkDir { d_xi : R; d_eta : R; d_mu : R; d_w : R }.
Definition setNth {A} (l : list A) (i : nat) (a : A) : option (list A) :=
  if (i <? length l)%nat then Some (firstn i l ++ a :: skipn (S i) l) else None.

(** Lines 233-242: the entry written in one turn of the loop. *)
Definition direction (n : nat) (gn gw : R) (k : nat) : dir :=
  let phi := (2 * PI) / INR (2 * n) * (INR k + /2) in
  mkDir (sqrt (1 - gn * gn) * cos phi) (sqrt (1 - gn * gn) * sin phi) gn (gw * (2 * PI) / INR (2 * n)).

(** Lines 150-244. [None]: order not supported (Insist), or a write outside the arrays. *)
Definition quadrature (n : nat) : option (list dir) :=
  let* t := gauss n in
  foldM (fun q ik =>
      let* x := nth_error (fst t) (fst ik) in
      let* w := nth_error (snd t) (fst ik) in
      setNth q (fst ik * 2 * n + snd ik) (direction n (lit x) (lit w) (snd ik)))
    (list_prod (seq 0 n) (seq 0 (2 * n))) (repeat (mkDir 0 0 0 0) (2 * n * n)).
