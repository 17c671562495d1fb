(** * The data sets of the project's tests: /repo/tests/data/robot_a.g2o and robot_b.g2o

    Written from the files by a script.  An edge [(i, j, [x; y; z; qx; qy; qz; qw])] holds its numbers
    times [10^12]; keys are the indices of symbols 'a' and 'b'.  Every edge of the files has the information
    2.50044 for translation and 10.0144 for rotation. *)
From Coq Require Import ZArith List.
Import ListNotations.
Local Open Scope Z_scope.

Definition vertices_a : list (N * list Z) := [
  (0%N, [0; 0; 0; 0; 0; 0; 1000000000000]);
  (1%N, [926350000000; 18210600000; 397159000000; 55537500000; (-73807400000); (-7931440000); 995693000000]);
  (2%N, [1936010000000; 17312500000; 506064000000; 30306800000; (-54080100000); 2570620000; 998073000000]);
  (3%N, [2948110000000; 46416000000; 618074000000; 43127600000; (-91336000000); 7824340000; 994855000000]);
  (4%N, [3965370000000; 53743100000; 701290000000; 51330500000; (-74802000000); 208149000; 995876000000]);
  (5%N, [5019360000000; 87445600000; 737571000000; 41564900000; (-91166900000); (-2441500000); 994965000000]);
  (6%N, [6035740000000; 94091300000; 819028000000; 34627600000; (-77727900000); (-1264460000); 996372000000]);
  (7%N, [7065600000000; 60550300000; 914860000000; 53697800000; (-58387200000); (-11734200000); 996780000000]);
  (8%N, [8065860000000; 67745500000; 1004110000000; 52322200000; (-66164700000); (-28453200000); 996030000000]);
  (9%N, [9068100000000; 45333400000; 1125440000000; 59485700000; (-52318700000); (-22176700000); 996611000000]);
  (10%N, [10130200000000; 35630300000; 1222780000000; 54999800000; (-73400500000); (-16642200000); 995646000000]);
  (11%N, [11132500000000; 93612600000; 1332270000000; 47983600000; (-40857100000); 8568970000; 997975000000]);
  (12%N, [12169800000000; 107550000000; 1407420000000; 48720800000; (-48289900000); 20798600000; 997428000000]);
  (13%N, [13196200000000; 140254000000; 1568410000000; 50002900000; (-41763000000); 10704500000; 997818000000]);
  (14%N, [14228500000000; 135489000000; 1679970000000; 58419500000; (-42880400000); (-2122070000); 997369000000]);
  (15%N, [15228500000000; 135511000000; 1765370000000; 57419200000; (-30756600000); 17322800000; 997726000000]);
  (16%N, [16278100000000; 174917000000; 1834000000000; 26145900000; (-8373300000); 5905530000; 999606000000]);
  (17%N, [17283500000000; 229008000000; 1945220000000; 56558300000; (-15055400000); (-1252210000); 998285000000]);
  (18%N, [18315300000000; 270618000000; 2001740000000; 75983200000; (-11328600000); 9909520000; 996995000000]);
  (19%N, [19349800000000; 362241000000; 2146630000000; 72290100000; (-31177100000); 7511690000; 996868000000]);
  (20%N, [20348700000000; 367551000000; 2265220000000; 68184000000; (-54950900000); (-18894500000); 995979000000]);
  (21%N, [21358400000000; 344243000000; 2390440000000; 61265500000; (-37793100000); (-15108100000); 997291000000]);
  (22%N, [22391100000000; 262807000000; 2594150000000; 93473400000; (-68118900000); (-30666600000); 992815000000]);
  (23%N, [23425200000000; 207263000000; 2721320000000; 61811900000; (-70790500000); (-23421200000); 995299000000]);
  (24%N, [24431400000000; 191620000000; 2835030000000; 56317900000; (-75667800000); (-1160980000); 995541000000]);
  (25%N, [25442500000000; 224798000000; 2909560000000; 74406400000; (-56922100000); (-9746390000); 995554000000]);
  (26%N, [26493700000000; 241024000000; 2970220000000; 90670100000; (-92466200000); (-9404950000); 991534000000]);
  (27%N, [27564400000000; 281850000000; 3080460000000; 57910100000; (-84917100000); 2320910000; 994701000000]);
  (28%N, [28574700000000; 331992000000; 3146700000000; 61951900000; (-100162000000); (-18176500000); 992874000000]);
  (29%N, [29627000000000; 317760000000; 3281610000000; 69959700000; (-66643700000); (-25568900000); 994993000000]);
  (30%N, [30692300000000; 319258000000; 3379000000000; 67908000000; (-70594000000); (-3501080000); 995185000000]);
  (31%N, [31700000000000; 348205000000; 3544640000000; 58924000000; (-84404800000); 12520600000; 994609000000]);
  (32%N, [32707300000000; 374511000000; 3632230000000; 79107200000; (-69578500000); 5577560000; 994419000000]);
  (33%N, [33748900000000; 371926000000; 3771310000000; 91555900000; (-50714500000); (-7930010000); 994476000000]);
  (34%N, [34761800000000; 342210000000; 3896760000000; 87983300000; (-85603400000); (-6842700000); 992413000000]);
  (35%N, [35782200000000; 296310000000; 4037790000000; 99415200000; (-88675000000); (-5409350000); 991072000000]);
  (36%N, [36812000000000; 255136000000; 4133150000000; 104373000000; (-87837200000); (-1290700000); 990651000000]);
  (37%N, [37807800000000; 236409000000; 4268790000000; 97758700000; (-89286100000); (-12419300000); 991119000000]);
  (38%N, [38842200000000; 217980000000; 4427510000000; 85290100000; (-89546900000); (-19362000000); 992135000000]);
  (39%N, [39838000000000; 224676000000; 4546990000000; 76238600000; (-102380000000); (-18046800000); 991655000000]);
  (40%N, [40897700000000; 198211000000; 4714310000000; 85556800000; (-83891400000); (-13841000000); 992699000000]);
  (41%N, [41892600000000; 150190000000; 4823790000000; 87762500000; (-80167100000); (-11025000000); 992849000000]);
  (42%N, [42899400000000; 117243000000; 5014590000000; 85340400000; (-113746000000); (-10583000000); 989781000000]);
  (43%N, [43958700000000; 122773000000; 5108800000000; 85629200000; (-67162200000); (-25987600000); 993721000000]);
  (44%N, [44984700000000; 132544000000; 5252230000000; 76322200000; (-79454700000); (-27399500000); 993535000000]);
  (45%N, [46000400000000; 81217900000; 5372710000000; 73201500000; (-61236100000); (-35345200000); 994808000000]);
  (46%N, [47005800000000; 10526900000; 5497270000000; 61746300000; (-72800400000); (-43452900000); 994484000000]);
  (47%N, [48038600000000; 2028000000; 5625290000000; 87957400000; (-62828200000); (-25408000000); 993816000000]);
  (48%N, [49073800000000; (-7508990000); 5704540000000; 81976900000; (-99121400000); (-23111500000); 991423000000]);
  (49%N, [50104800000000; (-59097400000); 5833300000000; 71194500000; (-64870600000); (-14325300000); 995248000000])].
Definition edges_a : list (N * N * list Z) := [
  (0%N, 1%N, [926350000000; 18210600000; 397159000000; 55537500000; (-73807400000); (-7931440000); 995693000000]);
  (1%N, 2%N, [1014470000000; 18949300000; (-42144800000); (-24635600000); 20201100000; 11242300000; 999429000000]);
  (2%N, 3%N, [1018320000000; 27283700000; 281092000; 13082000000; (-37231900000); 5687620000; 999205000000]);
  (3%N, 4%N, [1015400000000; (-9530180000); (-103304000000); 7550380000; 16149500000; (-9047280000); 999800000000]);
  (4%N, 5%N, [1047360000000; 28702200000; (-124772000000); (-9880160000); (-16499500000); (-1068030000); 999815000000]);
  (5%N, 6%N, [1014150000000; 10631400000; (-105319000000); (-6886410000); 13531600000; 1248410000; 999884000000]);
  (6%N, 7%N, [1032510000000; (-29777600000); (-62854700000); 18148700000; 18963900000; (-12583200000); 999576000000]);
  (7%N, 8%N, [1003230000000; 33954500000; (-30326600000); (-2215840000); (-8710180000); (-16176100000); 999829000000]);
  (8%N, 9%N, [1008900000000; 40718000000; (-13227900000); 7126020000; 14361700000; 5069650000; 999859000000]);
  (9%N, 10%N, [1065650000000; 42480900000; (-16313500000); (-3656200000); (-20831100000); 6983080000; 999752000000]);
  (10%N, 11%N, [1004310000000; 94980200000; (-46885200000); (-5804890000); 33842500000; 23865300000; 999125000000]);
  (11%N, 12%N, [1040100000000; (-793526000); (-10528900000); 1197970000; (-6859620000); 12536100000; 999897000000]);
  (12%N, 13%N, [1037730000000; 430517000; 59433700000; 908148000; 6010500000; (-10456100000); 999927000000]);
  (13%N, 14%N, [1037790000000; (-20072000000); 26159700000; 7873060000; (-1865160000); (-13089400000); 999882000000]);
  (14%N, 15%N, [1003580000000; 9211810000; (-1280900000); (-210513000); 13241000000; 18729100000; 999737000000]);
  (15%N, 16%N, [1052640000000; 6921430000; 1157860000; (-31273500000); 22276400000; (-11747200000); 999194000000]);
  (16%N, 17%N, [1007630000000; 47507100000; 91707400000; 30335500000; (-7057280000); (-7227070000); 999489000000]);
  (17%N, 18%N, [1032860000000; 48550300000; 20269600000; 19627900000; 4356610000; 10637700000; 999741000000]);
  (18%N, 19%N, [1039190000000; 90243500000; 107465000000; (-3896190000); (-19936000000); (-839371000); 999793000000]);
  (19%N, 20%N, [1004350000000; 2829260000; 55351100000; (-5030850000); (-25605000000); (-24470200000); 999360000000]);
  (20%N, 21%N, [1017320000000; 24628700000; 13290200000; (-7096200000); 17288400000; 3006330000; 999821000000]);
  (21%N, 22%N, [1047130000000; (-29322300000); 131703000000; 32265000000; (-30879400000); (-14943400000); 998890000000]);
  (22%N, 23%N, [1043150000000; 19466500000; (-11966600000); (-31090700000); (-2776980000); 9675960000; 999466000000]);
  (23%N, 24%N, [1011500000000; 36964100000; (-31120100000); (-3793090000); (-3589940000); 22851700000; 999725000000]);
  (24%N, 25%N, [1010440000000; 35057300000; (-82983700000); 17335700000; 18200600000; (-10971600000); 999624000000]);
  (25%N, 26%N, [1050490000000; 36592900000; (-63448900000); 16856400000; (-35430900000); 2019680000; 999228000000]);
  (26%N, 27%N, [1070750000000; 62177300000; (-98878900000); (-31756500000); 8533040000; 14001100000; 999361000000]);
  (27%N, 28%N, [1006700000000; 42808200000; (-111362000000); 2350170000; (-16515700000); (-19844900000); 999664000000]);
  (28%N, 29%N, [1057750000000; 27897000000; (-78817100000); 6469800000; 33179200000; (-10179900000); 999377000000]);
  (29%N, 30%N, [1066860000000; 59640200000; (-49714600000); (-483203000); (-2426300000); 22375400000; 999747000000]);
  (30%N, 31%N, [1020380000000; 48510100000; 16490200000; (-7722190000); (-12728400000); 17514600000; 999736000000]);
  (31%N, 32%N, [1007900000000; 1087880000; (-85046600000); 19685100000; 14068500000; (-9480420000); 999662000000]);
  (32%N, 33%N, [1050810000000; (-3798140000); (-6811560000); 11540100000; 17624700000; (-15791000000); 999653000000]);
  (33%N, 34%N, [1020700000000; 298555000; 24449000000; (-3032210000); (-34729600000); 4440420000; 999382000000]);
  (34%N, 35%N, [1030510000000; (-21901700000); (-29863400000); 11606900000; (-2958760000); 704943000; 999928000000]);
  (35%N, 36%N, [1031370000000; (-28591700000); (-82069600000); 5316180000; 1229260000; 3556660000; 999979000000]);
  (36%N, 37%N, [1004390000000; (-5950230000); (-39106200000); (-7577050000); (-2564310000); (-10291800000); 999915000000]);
  (37%N, 38%N, [1046070000000; 20445600000; (-28901500000); (-13073700000); (-1001300000); (-5729600000); 999898000000]);
  (38%N, 39%N, [999554000000; 50275200000; (-65510800000); (-8573180000); (-12838700000); 3200690000; 999876000000]);
  (39%N, 40%N, [1071670000000; 21164400000; (-52321000000); 9257840000; 18930300000; 1825890000; 999776000000]);
  (40%N, 41%N, [1000470000000; (-15389800000); (-53671400000); 2361430000; 3981280000; 2293870000; 999987000000]);
  (41%N, 42%N, [1024840000000; 9030490000; 28865400000; (-1729890000); (-33572400000); 3546150000; 999429000000]);
  (42%N, 43%N, [1052430000000; 23216900000; (-150946000000); (-2295600000); 45244100000; (-19213800000); 998789000000]);
  (43%N, 44%N, [1033290000000; 75716400000; (-3116700000); (-9007970000); (-12590700000); 269762000; 999880000000]);
  (44%N, 45%N, [1023260000000; 11125300000; (-39487900000); (-4328210000); 17510000000; (-9002030000); 999797000000]);
  (45%N, 46%N, [1015490000000; 10613300000; 4582030000; (-11459800000); (-12522500000); (-6529000000); 999835000000]);
  (46%N, 47%N, [1036660000000; 88109800000; (-28425100000); 26988100000; 12121700000; 15392400000; 999444000000]);
  (47%N, 48%N, [1035810000000; 45568200000; (-54867100000); (-4666690000); (-36169100000); 5789510000; 999318000000]);
  (48%N, 49%N, [1037600000000; 1170750000; (-73875800000); (-10924100000); 34807200000; 7060270000; 999309000000]);
  (38%N, 49%N, [1037600000000; 1170750000; (-73875800000); (-10924100000); 34807200000; 7060270000; 999309000000]);
  (28%N, 39%N, [1037600000000; 1170750000; (-73875800000); (-10924100000); 34807200000; 7060270000; 999309000000]);
  (33%N, 27%N, [1037600000000; 1170750000; (-73875800000); (-10924100000); 34807200000; 7060270000; 999309000000])].
Definition vertices_b : list (N * list Z) := [
  (0%N, [0; 0; 0; 0; 0; 0; 1000000000000]);
  (1%N, [958772000000; 10439600000; 388471000000; 95113300000; (-46406200000); (-8623650000); 994347000000]);
  (2%N, [2135130000000; 6867640000; 473035000000; 84050500000; (-52872200000); (-1574010000); 995057000000]);
  (3%N, [3149150000000; 14424300000; 579269000000; 99077200000; (-97752500000); 2115340000; 990265000000]);
  (4%N, [4176210000000; 13160400000; 678835000000; 109499000000; (-74321000000); (-9569250000); 991158000000]);
  (5%N, [5240770000000; 36310300000; 729561000000; 99010100000; (-83326100000); (-12369400000); 991514000000]);
  (6%N, [6242370000000; 14697500000; 825286000000; 85317000000; (-71757100000); (-3318060000); 993761000000]);
  (7%N, [7299650000000; (-32621500000); 911027000000; 115562000000; (-59320600000); (-15985600000); 991399000000]);
  (8%N, [8333100000000; (-33514800000); 992038000000; 107200000000; (-70343500000); (-42275100000); 990845000000]);
  (9%N, [9339980000000; (-71189200000); 1105750000000; 110339000000; (-39774100000); (-29295100000); 992666000000]);
  (10%N, [10351900000000; (-87652500000); 1171550000000; 102820000000; (-75975300000); (-23073500000); 991526000000]);
  (11%N, [11398600000000; (-62343300000); 1294020000000; 99588800000; (-43193200000); 5343640000; 994076000000]);
  (12%N, [12462800000000; (-58672500000); 1367580000000; 103571000000; (-49361500000); 20142100000; 993192000000]);
  (13%N, [13468500000000; (-65331400000); 1542130000000; 106458000000; (-33454400000); 11226900000; 993691000000]);
  (14%N, [14511200000000; (-94207000000); 1662460000000; 109220000000; (-52258500000); 2808190000; 992639000000]);
  (15%N, [15564400000000; (-83225400000); 1763660000000; 108717000000; (-29824700000); 19209700000; 993439000000]);
  (16%N, [16632900000000; (-28859200000); 1816420000000; 90091200000; (-10447300000); (-385277000); 995879000000]);
  (17%N, [17675200000000; 60019800000; 2021140000000; 165212000000; (-26140100000); 5764150000; 985895000000]);
  (18%N, [18725700000000; 60581500000; 2135400000000; 182105000000; (-41150700000); (-11726000000); 982348000000]);
  (19%N, [19762100000000; 8955840000; 2285730000000; 186656000000; (-24044800000); 916174000; 982131000000]);
  (20%N, [20824700000000; (-34742900000); 2365900000000; 211410000000; (-60707900000); (-21972200000); 975263000000]);
  (21%N, [21835200000000; (-100101000000); 2473840000000; 206888000000; (-69016000000); (-19236200000); 975738000000]);
  (22%N, [22837100000000; (-138362000000); 2606180000000; 197395000000; (-65606300000); (-14406900000); 978020000000]);
  (23%N, [23860500000000; (-147492000000); 2701510000000; 199970000000; (-79990000000); 2727140000; 976528000000]);
  (24%N, [24856800000000; (-85244300000); 2786520000000; 211898000000; (-72264500000); 7600570000; 974587000000]);
  (25%N, [25878500000000; (-58961300000); 2895240000000; 204860000000; (-94405700000); (-251875000); 974228000000]);
  (26%N, [26911600000000; (-15009300000); 3035150000000; 194418000000; (-114611000000); 6247490000; 974180000000]);
  (27%N, [27962700000000; 59861600000; 3136870000000; 203207000000; (-90526300000); (-14160800000); 974839000000]);
  (28%N, [29032500000000; 81615700000; 3237840000000; 206302000000; (-86732900000); (-18520400000); 974461000000]);
  (29%N, [30073900000000; 63111100000; 3377100000000; 198440000000; (-71234100000); (-5109590000); 977508000000]);
  (30%N, [31088100000000; 82995200000; 3540430000000; 191924000000; (-99702100000); 16798200000; 976188000000]);
  (31%N, [32135200000000; 129052000000; 3677800000000; 206693000000; (-64890500000); 16219000000; 976117000000]);
  (32%N, [33157900000000; 135221000000; 3802710000000; 213381000000; (-70119200000); 2718150000; 974446000000]);
  (33%N, [34208100000000; 90810800000; 3980970000000; 225883000000; (-78358900000); 3774870000; 970991000000]);
  (34%N, [35247400000000; 56781100000; 4098830000000; 232341000000; (-89944100000); 57605200; 968467000000]);
  (35%N, [36281000000000; 25144000000; 4199040000000; 234153000000; (-72866400000); 5481600000; 969450000000]);
  (36%N, [37333500000000; 3728500000; 4318840000000; 231246000000; (-86061900000); (-2596600000); 969078000000]);
  (37%N, [38370500000000; (-22263900000); 4490040000000; 224786000000; (-92735400000); (-15533200000); 969861000000]);
  (38%N, [39374000000000; (-8714950000); 4601560000000; 222530000000; (-87940600000); (-12678400000); 970869000000]);
  (39%N, [40420400000000; (-39194000000); 4752110000000; 231455000000; (-87024300000); (-6999770000); 968920000000]);
  (40%N, [41416900000000; (-86934200000); 4862820000000; 227321000000; (-80837200000); (-3564880000); 970452000000]);
  (41%N, [42427900000000; (-137839000000); 5055940000000; 219871000000; (-107325000000); (-14731500000); 969495000000])].
Definition edges_b : list (N * N * list Z) := [
  (0%N, 1%N, [958772000000; 10439600000; 388471000000; 95113300000; (-46406200000); (-8623650000); 994347000000]);
  (1%N, 2%N, [1178870000000; 22345900000; (-27150800000); (-10684800000); (-5821410000); 8144290000; 999893000000]);
  (2%N, 3%N, [1019400000000; 19401200000; (-4088150000); 15620900000; (-44578100000); 6641280000; 998862000000]);
  (3%N, 4%N, [1026760000000; (-5940020000); (-102454000000); 9138910000; 22111000000; (-14913000000); 999602000000]);
  (4%N, 5%N, [1059160000000; 36540300000; (-115114000000); (-10556900000); (-9305950000); (-1006420000); 999900000000]);
  (5%N, 6%N, [1003850000000; 5851050000; (-71237000000); (-13188200000); 12384800000; 8997870000; 999796000000]);
  (6%N, 7%N, [1059440000000; (-38022400000); (-59776500000); 29307400000; 11209000000; (-15827700000); 999382000000]);
  (7%N, 8%N, [1034920000000; 36434800000; (-46893100000); (-9609430000); (-14132700000); (-24302400000); 999559000000]);
  (8%N, 9%N, [1011860000000; 57326200000; (-31729200000); 2536470000; 31941900000; 9440300000; 999442000000]);
  (9%N, 10%N, [1012850000000; 48505500000; (-18887100000); (-6030480000); (-35514900000); 10436100000; 999296000000]);
  (10%N, 11%N, [1049810000000; 81685700000; (-49273900000); (-2063530000); 35545400000; 25110000000; 999050000000]);
  (11%N, 12%N, [1066620000000; (-2332940000); (-19157200000); 4653200000; (-4717440000); 15157800000; 999863000000]);
  (12%N, 13%N, [1017590000000; (-21467900000); 76921200000; 2695870000; 14841900000; (-10654600000); 999829000000]);
  (13%N, 14%N, [1047930000000; (-33537300000); 56631500000; 2363800000; (-19647900000); (-6444350000); 999783000000]);
  (14%N, 15%N, [1057920000000; 14738700000; (-12773000000); 333258000; 24103300000; 13854600000; 999613000000]);
  (15%N, 16%N, [1070950000000; 16663900000; (-19240300000); (-18981000000); 17550500000; (-21064400000); 999444000000]);
  (16%N, 17%N, [1046030000000; 123011000000; 163645000000; 75781300000; (-15149500000); 6749210000; 996987000000]);
  (17%N, 18%N, [1055140000000; 16704700000; 55537200000; 16696500000; (-17878500000); (-15184600000); 999585000000]);
  (18%N, 19%N, [1046030000000; 14084600000; 70053900000; 4829670000; 19150500000; 9114140000; 999763000000]);
  (19%N, 20%N, [1065560000000; (-22713500000); 40691500000; 25010400000; (-40468000000); (-16225000000); 998736000000]);
  (20%N, 21%N, [1018300000000; 2714020000; (-4768080000); (-4162740000); (-7594660000); 4709770000; 999951000000]);
  (21%N, 22%N, [1010910000000; 27824100000; (-7814060000); (-9466680000); 4300990000; 4705700000; 999935000000]);
  (22%N, 23%N, [1026400000000; 30908400000; (-46568300000); 4144380000; (-10746200000); 19406300000; 999745000000]);
  (23%N, 24%N, [995201000000; 53252400000; (-101772000000); 12446800000; 8330870000; 2265370000; 999885000000]);
  (24%N, 25%N, [1026210000000; 22277500000; (-53687900000); (-7518410000); (-23214800000); (-2449920000); 999699000000]);
  (25%N, 26%N, [1038610000000; 56664900000; (-81997900000); (-9544570000); (-18360000000); 11456900000; 999720000000]);
  (26%N, 27%N, [1043960000000; 47953500000; (-169273000000); 6244810000; 19515500000; (-25575200000); 999463000000]);
  (27%N, 28%N, [1067660000000; 50386400000; (-112561000000); 2645970000; 2821640000; (-5306300000); 999978000000]);
  (28%N, 29%N, [1048870000000; 39845700000; (-51303600000); (-7413130000); 17988300000; 10609200000; 999754000000]);
  (29%N, 30%N, [1025510000000; 63256400000; (-2194860000); (-4401720000); (-23607600000); 27521700000; 999333000000]);
  (30%N, 31%N, [1053080000000; 19236200000; (-89967100000); 14957700000; 33616300000; (-8717830000); 999285000000]);
  (31%N, 32%N, [1030180000000; (-4032810000); (-12008100000); 5913220000; (-8111280000); (-12504600000); 999871000000]);
  (32%N, 33%N, [1065510000000; (-3290800000); 36466200000; 12970800000; (-8079850000); 1920710000; 999881000000]);
  (33%N, 34%N, [1045670000000; (-23339800000); (-37060400000); 6505820000; (-12311000000); (-1489040000); 999902000000]);
  (34%N, 35%N, [1035600000000; (-26439800000); (-78029000000); 2015150000; 17887800000; 1122080000; 999837000000]);
  (35%N, 36%N, [1059020000000; (-11871000000); (-30860200000); (-3391400000); (-14695100000); (-4527840000); 999876000000]);
  (36%N, 37%N, [1051110000000; 17536100000; (-12226100000); (-7537190000); (-9408100000); (-10435300000); 999873000000]);
  (37%N, 38%N, [1004090000000; 49520600000; (-95053400000); (-2224770000); 5350410000; 1915820000; 999981000000]);
  (38%N, 39%N, [1056660000000; 22740600000; (-38172600000); 9586290000; 2095070000; 4499740000; 999942000000]);
  (39%N, 40%N, [1002210000000; (-19456400000); (-52754500000); (-4104620000); 6894210000; 2266600000; 999965000000]);
  (40%N, 41%N, [1029970000000; 9512880000; 32803300000; (-7820670000); (-28347300000); (-4216700000); 999559000000]);
  (30%N, 11%N, [1029970000000; 9512880000; 32803300000; (-7820670000); (-28347300000); (-4216700000); 999559000000]);
  (28%N, 9%N, [1029970000000; 9512880000; 32803300000; (-7820670000); (-28347300000); (-4216700000); 999559000000])].
