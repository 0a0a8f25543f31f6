-Q theories Verif
theories/Base.v
theories/ArkPoly.v
theories/ArkDomain.v
theories/FriModel.v
theories/FriSpec.v
theories/BaseLemmas.v
theories/ArkPolyLemmas.v
theories/ArkDomainLemmas.v
theories/FriMerkle.v
theories/FriTranscript.v
theories/FriFold.v
theories/FriComplete.v
theories/FriSound.v
theories/FriSpecLemmas.v
theories/FriProps.v
theories/FriAuthSpec.v
theories/FriAuthProps.v
theories/FriExamples.v
theories/FriMachine.v
theories/FriMachineProps.v
theories/FriMachineExamples.v
theories/KzgModel.v
theories/KzgSpec.v
theories/KzgLemmas.v
theories/KzgProps.v
theories/KzgExamples.v
theories/NovaModel.v
theories/NovaSpec.v
theories/NovaLemmas.v
theories/NovaTranscript.v
theories/NovaProps.v
theories/NovaHonestSpec.v
theories/NovaIvcProps.v
theories/NovaDriverProps.v
theories/NovaExamples.v
theories/NovaSoundSpec.v
theories/NovaSoundProps.v
theories/NovaSoundExamples.v
theories/ArkPolyFft.v
theories/ArkPolyFftLemmas.v
theories/PlonkModel.v
theories/PlonkSpec.v
theories/PlonkLemmas.v
theories/PlonkRefine.v
theories/PlonkProve.v
theories/PlonkVerify.v
theories/PlonkCompile.v
theories/PlonkProps.v
theories/PlonkChallengeProps.v
theories/PlonkExamples.v
theories/Concrete.v
theories/Pocklington.v
theories/ConcreteProps.v
theories/Sha256.v
theories/ShaProps.v
theories/ShaExamples.v
theories/StatementSpec.v
theories/ProgramModel.v
theories/ProgramProps.v
theories/ProgramExamples.v
theories/PlonkHideSpec.v
theories/PlonkHideProps.v
theories/PlonkHideExamples.v
theories/PlonkMachine.v
theories/PlonkMachineProps.v
theories/PlonkMachineExamples.v
theories/ParserModel.v
theories/ParserSpec.v
theories/ParserStrings.v
theories/ParserGates.v
theories/ParserParse.v
theories/ParserSound.v
theories/ParserAst.v
theories/ParserCircuit.v
theories/ParserNorm.v
theories/ParserProps.v
theories/CpiLemmas.v
theories/CpiProps.v
theories/ParserExamples.v
theories/PlonkSoundSpec.v
theories/PlonkForgeProps.v
theories/PlonkSoundProps.v
theories/PlonkSoundExamples.v
theories/PlonkErrorProps.v
theories/PlonkErrorExamples.v
theories/OracleProver.v
theories/PlonkFsSpec.v
theories/PlonkFsProps.v
theories/PlonkFsExamples.v
theories/KzgAlgSpec.v
theories/KzgAlgProps.v
theories/KzgAlgExamples.v
theories/SeedProps.v
theories/SeedExamples.v
theories/NovaForgeProps.v
theories/NovaErrorSpec.v
theories/NovaErrorProps.v
theories/NovaErrorExamples.v
theories/PlonkSizesProps.v
theories/PlonkSizesExamples.v
theories/FriQuerySpec.v
theories/FriQueryProps.v
theories/FriQueryExamples.v
theories/HonestErrorSpec.v
theories/HonestErrorProps.v
theories/HonestFriProps.v
theories/HonestErrorExamples.v
theories/BasePrime.v
theories/Encodings.v
theories/EncodingProps.v
theories/EncodingExamples.v
theories/NovaHonestProps.v
theories/NovaHonestExamples.v
theories/EquationSpec.v
theories/EquationProps.v
theories/EquationExamples.v
theories/CpiVerifyProps.v
theories/CpiVerifyExamples.v
theories/ShaMdSpec.v
theories/ShaMdProps.v
theories/ShaMdExamples.v
theories/ParserRename.v
theories/RenameSpec.v
theories/RenameProps.v
theories/RenameExamples.v
theories/MerkleSpec.v
theories/MerkleProps.v
theories/MerkleExamples.v
theories/NumeralProps.v
theories/NumeralExamples.v
theories/NovaRevealProps.v
theories/NovaRevealExamples.v
theories/KzgRevealProps.v
theories/KzgRevealExamples.v
theories/FriRevealProps.v
theories/FriRevealExamples.v
theories/TestRelationProps.v
theories/TestRelationExamples.v
theories/Assumptions.v
