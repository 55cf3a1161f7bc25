-Q theories Verif
theories/AhoModel.v
theories/AhoProofs.v
theories/AhoProofs2.v
theories/AhoProps.v
theories/AhoSpec.v
theories/AllocModel.v
theories/AllocProofs.v
theories/AllocProps.v
theories/AllocSpec.v
theories/BaseModel.v
theories/BaseProofs.v
theories/BaseProps.v
theories/BernModel.v
theories/BernProofs.v
theories/BernProofs2.v
theories/BernProps.v
theories/BernSpec.v
theories/BicModel.v
theories/BicProofs.v
theories/BicProps.v
theories/BicSpec.v
theories/BitVecModel.v
theories/BitVecProofs.v
theories/BitVecProofs2.v
theories/BitVecProofs3.v
theories/BitVecProofs4.v
theories/BitVecProofs5.v
theories/BitVecProps.v
theories/BitVecSpec.v
theories/BitsModel.v
theories/BitsProofs.v
theories/BitsProofs2.v
theories/BitsProofs3.v
theories/BitsProps.v
theories/BitsSpec.v
theories/BstModel.v
theories/BstProofs.v
theories/BstProofs10.v
theories/BstProofs11.v
theories/BstProofs12.v
theories/BstProofs13.v
theories/BstProofs2.v
theories/BstProofs3.v
theories/BstProofs4.v
theories/BstProofs5.v
theories/BstProofs6.v
theories/BstProofs7.v
theories/BstProofs8.v
theories/BstProofs9.v
theories/BstProps.v
theories/BstSpec.v
theories/ChromModel.v
theories/ChromProofs.v
theories/ChromProps.v
theories/ChromSpec.v
theories/Cl3Model.v
theories/Cl3Proofs.v
theories/Cl3Props.v
theories/Cl3Spec.v
theories/ClosModel.v
theories/ClosProofs.v
theories/ClosProps.v
theories/CmppModel.v
theories/CmppProofs.v
theories/CmppProofs2.v
theories/CmppProofs3.v
theories/CmppProofs4.v
theories/CmppProofs5.v
theories/CmppProofs6.v
theories/CmppProofs7.v
theories/CmppProps.v
theories/CombModel.v
theories/CombProofs.v
theories/CombProofs2.v
theories/CombProps.v
theories/CombSpec.v
theories/ConvModel.v
theories/ConvProofs.v
theories/ConvProofs2.v
theories/ConvProofs3.v
theories/ConvProps.v
theories/ConvSpec.v
theories/DetProofs.v
theories/DetSpec.v
theories/DfsModel.v
theories/DfsProofs.v
theories/DfsProofs2.v
theories/DfsProps.v
theories/DfsSpec.v
theories/DijkModel.v
theories/DijkProofs.v
theories/DijkProps.v
theories/DinicMatch.v
theories/DinicModel.v
theories/DinicProofs.v
theories/DinicProofs2.v
theories/DinicProps.v
theories/DinicSpec.v
theories/DintModel.v
theories/DintProofs.v
theories/DintProps.v
theories/DintSpec.v
theories/DirModel.v
theories/DirProofs.v
theories/DirProofs2.v
theories/DirProofs3.v
theories/DirProofs4.v
theories/DirProofs5.v
theories/DirProofs6.v
theories/DirProps.v
theories/DirSpec.v
theories/DisjointSetModel.v
theories/DisjointSetProofs.v
theories/DisjointSetProps.v
theories/DisjointSetSpec.v
theories/DivisorsModel.v
theories/DivisorsProofs.v
theories/DivisorsProofs2.v
theories/DivisorsProofs3.v
theories/DivisorsProps.v
theories/DivisorsSpec.v
theories/EarProofs.v
theories/EarProps.v
theories/EarSpec.v
theories/FactorModel.v
theories/FactorProofs.v
theories/FactorProofs2.v
theories/FactorProofs3.v
theories/FactorProps.v
theories/FactorSpec.v
theories/FenwickModel.v
theories/FenwickProofs.v
theories/FenwickProps.v
theories/FenwickSpec.v
theories/FftModel.v
theories/FftProofs.v
theories/FftProofs2.v
theories/FftProofs3.v
theories/FftProofs4.v
theories/FftProofs5.v
theories/FftProps.v
theories/FftSpec.v
theories/FloydModel.v
theories/FloydProofs.v
theories/FloydProps.v
theories/FracModel.v
theories/FracProofs.v
theories/FracProps.v
theories/FracSpec.v
theories/GaSpec.v
theories/GraphModel.v
theories/GraphProofs.v
theories/GraphProps.v
theories/GraphSpec.v
theories/HashModel.v
theories/HashProofs.v
theories/HashProps.v
theories/HashSpec.v
theories/HeapModel.v
theories/HeapProofs.v
theories/HeapProps.v
theories/HeapSpec.v
theories/HldModel.v
theories/HldProofs.v
theories/HldProofs2.v
theories/HldProofs3.v
theories/HldProps.v
theories/HldSpec.v
theories/HolderModel.v
theories/HolderProofs.v
theories/HolderProps.v
theories/HolderSpec.v
theories/HungModel.v
theories/HungProofs.v
theories/HungProofs2.v
theories/HungProps.v
theories/HungSpec.v
theories/IoModel.v
theories/IoProofs.v
theories/IoProofs2.v
theories/IoProps.v
theories/IoSpec.v
theories/JacobiModel.v
theories/JacobiProofs.v
theories/JacobiProps.v
theories/JacobiSpec.v
theories/LazySegModel.v
theories/LazySegProofs.v
theories/LazySegProps.v
theories/LazySegSpec.v
theories/LcaModel.v
theories/LcaProofs.v
theories/LcaProofs2.v
theories/LcaProofs3.v
theories/LcaProps.v
theories/LcaSpec.v
theories/LctModel.v
theories/LctProofs.v
theories/LctProofs2.v
theories/LctProps.v
theories/LctRun.v
theories/LctSpec.v
theories/Lib.v
theories/LohiModel.v
theories/LohiProofs.v
theories/LohiProps.v
theories/LohiSpec.v
theories/MatrixDetProps.v
theories/MatrixModel.v
theories/MatrixProofs.v
theories/MatrixProofs2.v
theories/MatrixProofs3.v
theories/MatrixProps.v
theories/MatrixSpec.v
theories/MeisselModel.v
theories/MeisselProofs.v
theories/MeisselProps.v
theories/MeisselSpec.v
theories/ModPowModel.v
theories/ModPowProofs.v
theories/ModuloModel.v
theories/ModuloProofs.v
theories/ModuloProps.v
theories/ModuloSpec.v
theories/MoebiusModel.v
theories/MoebiusProofs.v
theories/MoebiusProps.v
theories/MoebiusSpec.v
theories/MonoModel.v
theories/MonoProps.v
theories/MonoSpec.v
theories/NimMex.v
theories/NimModel.v
theories/NimNat.v
theories/NimProofs.v
theories/NimProofs2.v
theories/NimProps.v
theories/NimSpec.v
theories/NimTower.v
theories/NumTheory.v
theories/NumTheory2.v
theories/NumTheory3.v
theories/NumTheory4.v
theories/OrderModel.v
theories/OrderProofs.v
theories/OrderProofs10.v
theories/OrderProofs2.v
theories/OrderProofs3.v
theories/OrderProofs4.v
theories/OrderProofs5.v
theories/OrderProofs6.v
theories/OrderProofs7.v
theories/OrderProofs8.v
theories/OrderProofs9.v
theories/OrderProps.v
theories/OrderSpec.v
theories/PalModel.v
theories/PalProofs.v
theories/PalProofs2.v
theories/PalProofs3.v
theories/PalProps.v
theories/PalSpec.v
theories/ParModel.v
theories/ParProofs.v
theories/ParProps.v
theories/ParSpec.v
theories/PellModel.v
theories/PellProofs.v
theories/PellProofs2.v
theories/PellProofs3.v
theories/PellProofs4.v
theories/PellProofs5.v
theories/PellProofs6.v
theories/PellProofs7.v
theories/PellProofs8.v
theories/PellProps.v
theories/PellSpec.v
theories/PermModel.v
theories/PermProofs.v
theories/PermProofs2.v
theories/PermProofs3.v
theories/PermProofs4.v
theories/PermProofs5.v
theories/PermProps.v
theories/PermSpec.v
theories/PgaModel.v
theories/PgaProofs.v
theories/PgaProofs2.v
theories/PgaProofs3.v
theories/PgaProofs4.v
theories/PgaProofs5.v
theories/PgaProps.v
theories/PgaSpec.v
theories/PiModel.v
theories/PiProofs.v
theories/PiProofs2.v
theories/PiProofs3.v
theories/PiProps.v
theories/PiSpec.v
theories/PmodModel.v
theories/PmodProofs.v
theories/PmodProofs2.v
theories/PmodProps.v
theories/PolyModel.v
theories/PolyProofs.v
theories/PolyProofs2.v
theories/PolyProofs3.v
theories/PolyProofs4.v
theories/PolyProofs5.v
theories/PolyProps.v
theories/PrimProofs.v
theories/PrimesModel.v
theories/PrimesProofs.v
theories/PrimesProofs2.v
theories/PrimesProofs3.v
theories/PrimesProofs4.v
theories/PrimesProofs5.v
theories/PrimesProps.v
theories/PrimesSpec.v
theories/PrngModel.v
theories/PrngProofs.v
theories/PrngProofs2.v
theories/PrngProofs3.v
theories/PrngProps.v
theories/PrngSpec.v
theories/QuadraticModel.v
theories/QuadraticProps.v
theories/RangesModel.v
theories/RangesProofs.v
theories/RangesProps.v
theories/RangesSpec.v
theories/RecurrenceModel.v
theories/RecurrenceProofs.v
theories/RecurrenceProps.v
theories/RecurrenceSpec.v
theories/RingProofs.v
theories/RingSpec.v
theories/RmqModel.v
theories/RmqProofs.v
theories/RmqProofs2.v
theories/RmqProps.v
theories/RmqSpec.v
theories/RootsModel.v
theories/RootsProofs.v
theories/RootsProofs2.v
theories/RootsProofs3.v
theories/RootsProps.v
theories/RootsSpec.v
theories/RopeModel.v
theories/RopeProofs.v
theories/RopeProps.v
theories/RopeSpec.v
theories/SaModel.v
theories/SaProofs.v
theories/SaProps.v
theories/SaSpec.v
theories/SatModel.v
theories/SatProofs.v
theories/SatProps.v
theories/SatSpec.v
theories/SearchModel.v
theories/SearchProofs.v
theories/SearchProps.v
theories/SearchSpec.v
theories/SegModel.v
theories/SegProofs.v
theories/SegProofs2.v
theories/SegProps.v
theories/SegSpec.v
theories/SegTreeModel.v
theories/SegTreeProofs.v
theories/SegTreeProps.v
theories/SegTreeSpec.v
theories/SeqsModel.v
theories/SeqsProofs.v
theories/SeqsProofs2.v
theories/SeqsProps.v
theories/SeqsSpec.v
theories/SerModel.v
theories/SerProofs.v
theories/SerProofs2.v
theories/SerProofs3.v
theories/SerProofs4.v
theories/SerProofs5.v
theories/SerProps.v
theories/SerSpec.v
theories/SeriesProofs.v
theories/SeriesSpec.v
theories/SqrModel.v
theories/SqrProofs.v
theories/SqrProofs2.v
theories/SqrProofs3.v
theories/SqrProofs4.v
theories/SqrProofs5.v
theories/SqrProps.v
theories/SqrSpec.v
theories/StirlingProofs.v
theories/SumMModel.v
theories/SumMProofs.v
theories/SumMProofs2.v
theories/SumMProofs3.v
theories/SumMProps.v
theories/SumMSpec.v
theories/SumMulModel.v
theories/SumMulProofs.v
theories/SumMulProofs2.v
theories/SumMulProofs3.v
theories/SumMulProofs4.v
theories/SumMulProofs5.v
theories/SumMulProofs6.v
theories/SumMulProps.v
theories/SumMulSpec.v
theories/SumsModel.v
theories/SumsProofs.v
theories/SumsProps.v
theories/SumsSpec.v
theories/TarjanModel.v
theories/TarjanProofs.v
theories/TarjanProofs2.v
theories/TarjanProps.v
theories/TarjanSpec.v
theories/TokModel.v
theories/TokProofs.v
theories/TokProps.v
theories/TokSpec.v
theories/TreapModel.v
theories/TreapProofs.v
theories/TreapProofs2.v
theories/TreapProofs3.v
theories/TreapProofs4.v
theories/TreapProps.v
theories/TreapSpec.v
theories/TrieModel.v
theories/TrieProofs.v
theories/TrieProofs2.v
theories/TrieProofs3.v
theories/TrieProps.v
theories/TrieSpec.v
theories/TripleModel.v
theories/TripleProofs.v
theories/TripleProofs2.v
theories/TripleProofs3.v
theories/TripleProofs4.v
theories/TripleProofs5.v
theories/TripleProofs6.v
theories/TripleProofs7.v
theories/TripleProofs8.v
theories/TripleProps.v
theories/TripleSpec.v
theories/VecModel.v
theories/VecProofs.v
theories/VecProps.v
theories/VecSpec.v
theories/WalkSpec.v
theories/YardModel.v
theories/YardProofs.v
theories/YardProps.v
theories/YardSpec.v
