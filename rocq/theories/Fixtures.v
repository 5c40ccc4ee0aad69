(** GENERATED by tools/fixtures.py from /repo/tests: the repository's own tests of the qlc command, run on
    the model.  Each check runs the process on the command line of the test with the files of the test as
    texts (documents, schema, configuration), and compares the exit code, the texts expected on standard
    output, and every expected file byte for byte, under two different hash orders.  Not compared: the
    words of serde_json and graphql_parser.  These are fidelity tests of the model, not proofs of
    properties. *)
From Verif Require Import Main Json Gql Args Strsim.
Set Warnings "-abstract-large-number".

Definition fx_schema_text : string :=
  join "" ["{""data"": {""__schema"": {""queryType"": {""name"": ""Query""}, ""mutationType"": {""name"": ""Mutation""}, ""subscriptionType"": null, ""types"": [{""kind"": ""OBJECT"", ""name"": ""Query"", ""description"": null, ""fields"": [{""name"": ""operator"", ""description"": null, ""args"": [], ""type"": {""kind"": ""OBJECT"", ""name"": ""User"", ""ofType"": null}, ""isDeprecated"": false, ""deprecationReason"": null}, {""name"": ""host"", ""description"": null, "; """args"": [], ""type"": {""kind"": ""OBJECT"", ""name"": ""Host"", ""ofType"": null}, ""isDeprecated"": false, ""deprecationReason"": null}, {""name"": ""network"", ""description"": null, ""args"": [], ""type"": {""kind"": ""OBJECT"", ""name"": ""Network"", ""ofType"": null}, ""isDeprecated"": false, ""deprecationReason"": null}, {""name"": ""node"", ""description"": null, ""args"": [], ""type"": {""kind"": ""INTERFACE"", ""name"": ""Node"", ""ofType"": null"; "}, ""isDeprecated"": false, ""deprecationReason"": null}], ""inputFields"": null, ""interfaces"": [], ""enumValues"": null, ""possibleTypes"": null}, {""kind"": ""OBJECT"", ""name"": ""Mutation"", ""description"": null, ""fields"": [{""name"": ""decommissionHost"", ""description"": null, ""args"": [], ""type"": {""kind"": ""NON_NULL"", ""name"": null, ""ofType"": {""kind"": ""SCALAR"", ""name"": ""Boolean"", ""ofType"": null}}, ""isDeprecated"": fals"; "e, ""deprecationReason"": null}, {""name"": ""provisionHost"", ""description"": ""Null return means it failed"", ""args"": [], ""type"": {""kind"": ""OBJECT"", ""name"": ""ProvisionHostPayload"", ""ofType"": null}, ""isDeprecated"": false, ""deprecationReason"": null}, {""name"": ""attachHostToNetworks"", ""description"": null, ""args"": [], ""type"": {""kind"": ""NON_NULL"", ""name"": null, ""ofType"": {""kind"": ""OBJECT"", ""name"": ""AttachHostT"; "oNetworksPayload"", ""ofType"": null}}, ""isDeprecated"": false, ""deprecationReason"": null}], ""inputFields"": null, ""interfaces"": [], ""enumValues"": null, ""possibleTypes"": null}, {""kind"": ""SCALAR"", ""name"": ""ISO8601"", ""description"": null, ""fields"": null, ""inputFields"": null, ""interfaces"": null, ""enumValues"": null, ""possibleTypes"": null}, {""kind"": ""SCALAR"", ""name"": ""JSON"", ""description"": null, ""fields"": nu"; "ll, ""inputFields"": null, ""interfaces"": null, ""enumValues"": null, ""possibleTypes"": null}, {""kind"": ""INTERFACE"", ""name"": ""Node"", ""description"": ""Lookup-able thing"", ""fields"": [{""name"": ""id"", ""description"": null, ""args"": [], ""type"": {""kind"": ""NON_NULL"", ""name"": null, ""ofType"": {""kind"": ""SCALAR"", ""name"": ""ID"", ""ofType"": null}}, ""isDeprecated"": false, ""deprecationReason"": null}], ""inputFields"": null, """; "interfaces"": null, ""enumValues"": null, ""possibleTypes"": [{""kind"": ""OBJECT"", ""name"": ""User"", ""ofType"": null}, {""kind"": ""OBJECT"", ""name"": ""Host"", ""ofType"": null}, {""kind"": ""OBJECT"", ""name"": ""Network"", ""ofType"": null}]}, {""kind"": ""OBJECT"", ""name"": ""User"", ""description"": null, ""fields"": [{""name"": ""id"", ""description"": null, ""args"": [], ""type"": {""kind"": ""NON_NULL"", ""name"": null, ""ofType"": {""kind"": ""SCAL"; "AR"", ""name"": ""ID"", ""ofType"": null}}, ""isDeprecated"": false, ""deprecationReason"": null}, {""name"": ""email"", ""description"": null, ""args"": [], ""type"": {""kind"": ""NON_NULL"", ""name"": null, ""ofType"": {""kind"": ""SCALAR"", ""name"": ""String"", ""ofType"": null}}, ""isDeprecated"": false, ""deprecationReason"": null}, {""name"": ""firstName"", ""description"": null, ""args"": [], ""type"": {""kind"": ""NON_NULL"", ""name"": null, ""ofT"; "ype"": {""kind"": ""SCALAR"", ""name"": ""String"", ""ofType"": null}}, ""isDeprecated"": false, ""deprecationReason"": null}, {""name"": ""lastName"", ""description"": null, ""args"": [], ""type"": {""kind"": ""NON_NULL"", ""name"": null, ""ofType"": {""kind"": ""SCALAR"", ""name"": ""String"", ""ofType"": null}}, ""isDeprecated"": false, ""deprecationReason"": null}, {""name"": ""publicRSAKey"", ""description"": null, ""args"": [], ""type"": {""kind"": "; """NON_NULL"", ""name"": null, ""ofType"": {""kind"": ""SCALAR"", ""name"": ""String"", ""ofType"": null}}, ""isDeprecated"": true, ""deprecationReason"": null}, {""name"": ""publicKey"", ""description"": null, ""args"": [], ""type"": {""kind"": ""OBJECT"", ""name"": ""PublicKey"", ""ofType"": null}, ""isDeprecated"": false, ""deprecationReason"": null}, {""name"": ""manager"", ""description"": ""A user's manager, if they have one"", ""args"": [], ""ty"; "pe"": {""kind"": ""OBJECT"", ""name"": ""User"", ""ofType"": null}, ""isDeprecated"": false, ""deprecationReason"": null}, {""name"": ""personalHost"", ""description"": ""A user's personal device"", ""args"": [], ""type"": {""kind"": ""NON_NULL"", ""name"": null, ""ofType"": {""kind"": ""OBJECT"", ""name"": ""Host"", ""ofType"": null}}, ""isDeprecated"": false, ""deprecationReason"": null}, {""name"": ""lastLogin"", ""description"": ""User's last time "; "logging in"", ""args"": [], ""type"": {""kind"": ""SCALAR"", ""name"": ""ISO8601"", ""ofType"": null}, ""isDeprecated"": true, ""deprecationReason"": null}, {""name"": ""activity"", ""description"": ""User's activity timestamps"", ""args"": [], ""type"": {""kind"": ""NON_NULL"", ""name"": null, ""ofType"": {""kind"": ""OBJECT"", ""name"": ""UserActivity"", ""ofType"": null}}, ""isDeprecated"": false, ""deprecationReason"": null}, {""name"": ""tags"", ""d"; "escription"": null, ""args"": [], ""type"": {""kind"": ""NON_NULL"", ""name"": null, ""ofType"": {""kind"": ""LIST"", ""name"": null, ""ofType"": {""kind"": ""NON_NULL"", ""name"": null, ""ofType"": {""kind"": ""UNION"", ""name"": ""ResourceTag"", ""ofType"": null}}}}, ""isDeprecated"": false, ""deprecationReason"": null}], ""inputFields"": null, ""interfaces"": [{""kind"": ""INTERFACE"", ""name"": ""Node"", ""ofType"": null}, {""kind"": ""INTERFACE"", ""nam"; "e"": ""Tagged"", ""ofType"": null}], ""enumValues"": null, ""possibleTypes"": null}, {""kind"": ""OBJECT"", ""name"": ""PublicKey"", ""description"": null, ""fields"": [{""name"": ""kind"", ""description"": null, ""args"": [], ""type"": {""kind"": ""NON_NULL"", ""name"": null, ""ofType"": {""kind"": ""ENUM"", ""name"": ""CryptoSigningAlgorithim"", ""ofType"": null}}, ""isDeprecated"": false, ""deprecationReason"": null}, {""name"": ""bitSize"", ""descrip"; "tion"": null, ""args"": [], ""type"": {""kind"": ""NON_NULL"", ""name"": null, ""ofType"": {""kind"": ""SCALAR"", ""name"": ""Int"", ""ofType"": null}}, ""isDeprecated"": false, ""deprecationReason"": null}, {""name"": ""value"", ""description"": null, ""args"": [], ""type"": {""kind"": ""NON_NULL"", ""name"": null, ""ofType"": {""kind"": ""SCALAR"", ""name"": ""String"", ""ofType"": null}}, ""isDeprecated"": false, ""deprecationReason"": null}], ""inputFi"; "elds"": null, ""interfaces"": [], ""enumValues"": null, ""possibleTypes"": null}, {""kind"": ""OBJECT"", ""name"": ""UserActivity"", ""description"": null, ""fields"": [{""name"": ""login"", ""description"": ""User's last time successfully authenticating"", ""args"": [], ""type"": {""kind"": ""SCALAR"", ""name"": ""ISO8601"", ""ofType"": null}, ""isDeprecated"": false, ""deprecationReason"": null}, {""name"": ""logout"", ""description"": null, ""ar"; "gs"": [], ""type"": {""kind"": ""SCALAR"", ""name"": ""ISO8601"", ""ofType"": null}, ""isDeprecated"": false, ""deprecationReason"": null}, {""name"": ""read"", ""description"": null, ""args"": [], ""type"": {""kind"": ""SCALAR"", ""name"": ""ISO8601"", ""ofType"": null}, ""isDeprecated"": false, ""deprecationReason"": null}, {""name"": ""write"", ""description"": null, ""args"": [], ""type"": {""kind"": ""SCALAR"", ""name"": ""ISO8601"", ""ofType"": null},"; " ""isDeprecated"": false, ""deprecationReason"": null}], ""inputFields"": null, ""interfaces"": [], ""enumValues"": null, ""possibleTypes"": null}, {""kind"": ""ENUM"", ""name"": ""CryptoSigningAlgorithim"", ""description"": null, ""fields"": null, ""inputFields"": null, ""interfaces"": null, ""enumValues"": [{""name"": ""RSA"", ""description"": null, ""isDeprecated"": false, ""deprecationReason"": null}, {""name"": ""DSA"", ""description"": "; "null, ""isDeprecated"": false, ""deprecationReason"": null}, {""name"": ""ECDSA"", ""description"": null, ""isDeprecated"": false, ""deprecationReason"": null}, {""name"": ""ED25519"", ""description"": null, ""isDeprecated"": false, ""deprecationReason"": null}], ""possibleTypes"": null}, {""kind"": ""OBJECT"", ""name"": ""Host"", ""description"": null, ""fields"": [{""name"": ""id"", ""description"": null, ""args"": [], ""type"": {""kind"": ""NON"; "_NULL"", ""name"": null, ""ofType"": {""kind"": ""SCALAR"", ""name"": ""ID"", ""ofType"": null}}, ""isDeprecated"": false, ""deprecationReason"": null}, {""name"": ""operatingSystem"", ""description"": null, ""args"": [], ""type"": {""kind"": ""NON_NULL"", ""name"": null, ""ofType"": {""kind"": ""ENUM"", ""name"": ""OperatingSystem"", ""ofType"": null}}, ""isDeprecated"": false, ""deprecationReason"": null}, {""name"": ""numCpus"", ""description"": null"; ", ""args"": [], ""type"": {""kind"": ""NON_NULL"", ""name"": null, ""ofType"": {""kind"": ""SCALAR"", ""name"": ""Int"", ""ofType"": null}}, ""isDeprecated"": false, ""deprecationReason"": null}, {""name"": ""networks"", ""description"": null, ""args"": [], ""type"": {""kind"": ""NON_NULL"", ""name"": null, ""ofType"": {""kind"": ""LIST"", ""name"": null, ""ofType"": {""kind"": ""NON_NULL"", ""name"": null, ""ofType"": {""kind"": ""OBJECT"", ""name"": ""Network"","; " ""ofType"": null}}}}, ""isDeprecated"": false, ""deprecationReason"": null}, {""name"": ""tags"", ""description"": null, ""args"": [], ""type"": {""kind"": ""NON_NULL"", ""name"": null, ""ofType"": {""kind"": ""LIST"", ""name"": null, ""ofType"": {""kind"": ""NON_NULL"", ""name"": null, ""ofType"": {""kind"": ""UNION"", ""name"": ""ResourceTag"", ""ofType"": null}}}}, ""isDeprecated"": false, ""deprecationReason"": null}], ""inputFields"": null, ""inte"; "rfaces"": [{""kind"": ""INTERFACE"", ""name"": ""Node"", ""ofType"": null}, {""kind"": ""INTERFACE"", ""name"": ""Tagged"", ""ofType"": null}], ""enumValues"": null, ""possibleTypes"": null}, {""kind"": ""OBJECT"", ""name"": ""HostConnection"", ""description"": null, ""fields"": [{""name"": ""totalCount"", ""description"": null, ""args"": [], ""type"": {""kind"": ""NON_NULL"", ""name"": null, ""ofType"": {""kind"": ""SCALAR"", ""name"": ""Int"", ""ofType"": nul"; "l}}, ""isDeprecated"": false, ""deprecationReason"": null}, {""name"": ""edges"", ""description"": null, ""args"": [], ""type"": {""kind"": ""NON_NULL"", ""name"": null, ""ofType"": {""kind"": ""LIST"", ""name"": null, ""ofType"": {""kind"": ""NON_NULL"", ""name"": null, ""ofType"": {""kind"": ""OBJECT"", ""name"": ""HostEdge"", ""ofType"": null}}}}, ""isDeprecated"": false, ""deprecationReason"": null}], ""inputFields"": null, ""interfaces"": [], ""enu"; "mValues"": null, ""possibleTypes"": null}, {""kind"": ""OBJECT"", ""name"": ""HostEdge"", ""description"": null, ""fields"": [{""name"": ""node"", ""description"": null, ""args"": [], ""type"": {""kind"": ""NON_NULL"", ""name"": null, ""ofType"": {""kind"": ""OBJECT"", ""name"": ""Host"", ""ofType"": null}}, ""isDeprecated"": false, ""deprecationReason"": null}], ""inputFields"": null, ""interfaces"": [], ""enumValues"": null, ""possibleTypes"": null}"; ", {""kind"": ""OBJECT"", ""name"": ""Network"", ""description"": null, ""fields"": [{""name"": ""id"", ""description"": null, ""args"": [], ""type"": {""kind"": ""NON_NULL"", ""name"": null, ""ofType"": {""kind"": ""SCALAR"", ""name"": ""ID"", ""ofType"": null}}, ""isDeprecated"": false, ""deprecationReason"": null}, {""name"": ""cidr"", ""description"": null, ""args"": [], ""type"": {""kind"": ""NON_NULL"", ""name"": null, ""ofType"": {""kind"": ""SCALAR"", ""na"; "me"": ""String"", ""ofType"": null}}, ""isDeprecated"": false, ""deprecationReason"": null}, {""name"": ""ipv6Cidr"", ""description"": null, ""args"": [], ""type"": {""kind"": ""SCALAR"", ""name"": ""String"", ""ofType"": null}, ""isDeprecated"": false, ""deprecationReason"": null}, {""name"": ""hosts"", ""description"": null, ""args"": [], ""type"": {""kind"": ""NON_NULL"", ""name"": null, ""ofType"": {""kind"": ""OBJECT"", ""name"": ""HostConnection"", "; """ofType"": null}}, ""isDeprecated"": false, ""deprecationReason"": null}, {""name"": ""tags"", ""description"": null, ""args"": [], ""type"": {""kind"": ""NON_NULL"", ""name"": null, ""ofType"": {""kind"": ""LIST"", ""name"": null, ""ofType"": {""kind"": ""NON_NULL"", ""name"": null, ""ofType"": {""kind"": ""UNION"", ""name"": ""ResourceTag"", ""ofType"": null}}}}, ""isDeprecated"": false, ""deprecationReason"": null}, {""name"": ""hostIdTopology"", ""de"; "scription"": null, ""args"": [], ""type"": {""kind"": ""LIST"", ""name"": null, ""ofType"": {""kind"": ""LIST"", ""name"": null, ""ofType"": {""kind"": ""LIST"", ""name"": null, ""ofType"": {""kind"": ""SCALAR"", ""name"": ""ID"", ""ofType"": null}}}}, ""isDeprecated"": false, ""deprecationReason"": null}, {""name"": ""hostIdGroups"", ""description"": null, ""args"": [], ""type"": {""kind"": ""NON_NULL"", ""name"": null, ""ofType"": {""kind"": ""LIST"", ""name"":"; " null, ""ofType"": {""kind"": ""NON_NULL"", ""name"": null, ""ofType"": {""kind"": ""LIST"", ""name"": null, ""ofType"": {""kind"": ""NON_NULL"", ""name"": null, ""ofType"": {""kind"": ""SCALAR"", ""name"": ""ID"", ""ofType"": null}}}}}}, ""isDeprecated"": false, ""deprecationReason"": null}], ""inputFields"": null, ""interfaces"": [{""kind"": ""INTERFACE"", ""name"": ""Node"", ""ofType"": null}, {""kind"": ""INTERFACE"", ""name"": ""Tagged"", ""ofType"": null"; "}], ""enumValues"": null, ""possibleTypes"": null}, {""kind"": ""ENUM"", ""name"": ""OperatingSystem"", ""description"": ""An OS makes hardware useful"", ""fields"": null, ""inputFields"": null, ""interfaces"": null, ""enumValues"": [{""name"": ""ARCH_LINUX"", ""description"": null, ""isDeprecated"": false, ""deprecationReason"": null}, {""name"": ""UBUNTU_LINUX"", ""description"": null, ""isDeprecated"": false, ""deprecationReason"": null}"; ", {""name"": ""FREEBSD"", ""description"": null, ""isDeprecated"": false, ""deprecationReason"": null}], ""possibleTypes"": null}, {""kind"": ""INPUT_OBJECT"", ""name"": ""ProvisionHostInput"", ""description"": null, ""fields"": null, ""inputFields"": [{""name"": ""os"", ""description"": null, ""type"": {""kind"": ""NON_NULL"", ""name"": null, ""ofType"": {""kind"": ""ENUM"", ""name"": ""OperatingSystem"", ""ofType"": null}}, ""defaultValue"": null}]"; ", ""interfaces"": null, ""enumValues"": null, ""possibleTypes"": null}, {""kind"": ""OBJECT"", ""name"": ""ProvisionHostPayload"", ""description"": null, ""fields"": [{""name"": ""host"", ""description"": null, ""args"": [], ""type"": {""kind"": ""NON_NULL"", ""name"": null, ""ofType"": {""kind"": ""OBJECT"", ""name"": ""Host"", ""ofType"": null}}, ""isDeprecated"": false, ""deprecationReason"": null}], ""inputFields"": null, ""interfaces"": [], ""enu"; "mValues"": null, ""possibleTypes"": null}, {""kind"": ""INPUT_OBJECT"", ""name"": ""AttachHostToNetworksInput"", ""description"": null, ""fields"": null, ""inputFields"": [{""name"": ""hostId"", ""description"": ""ID of host to attach"", ""type"": {""kind"": ""NON_NULL"", ""name"": null, ""ofType"": {""kind"": ""SCALAR"", ""name"": ""ID"", ""ofType"": null}}, ""defaultValue"": null}, {""name"": ""networkIds"", ""description"": ""IDs of networks to at"; "tach to"", ""type"": {""kind"": ""NON_NULL"", ""name"": null, ""ofType"": {""kind"": ""LIST"", ""name"": null, ""ofType"": {""kind"": ""NON_NULL"", ""name"": null, ""ofType"": {""kind"": ""SCALAR"", ""name"": ""ID"", ""ofType"": null}}}}, ""defaultValue"": null}], ""interfaces"": null, ""enumValues"": null, ""possibleTypes"": null}, {""kind"": ""OBJECT"", ""name"": ""AttachHostToNetworksPayload"", ""description"": null, ""fields"": [{""name"": ""host"", ""de"; "scription"": null, ""args"": [], ""type"": {""kind"": ""NON_NULL"", ""name"": null, ""ofType"": {""kind"": ""OBJECT"", ""name"": ""Host"", ""ofType"": null}}, ""isDeprecated"": false, ""deprecationReason"": null}], ""inputFields"": null, ""interfaces"": [], ""enumValues"": null, ""possibleTypes"": null}, {""kind"": ""INTERFACE"", ""name"": ""Tag"", ""description"": null, ""fields"": [{""name"": ""author"", ""description"": null, ""args"": [], ""type"": "; "{""kind"": ""NON_NULL"", ""name"": null, ""ofType"": {""kind"": ""OBJECT"", ""name"": ""User"", ""ofType"": null}}, ""isDeprecated"": false, ""deprecationReason"": null}, {""name"": ""timeToLiveMs"", ""description"": null, ""args"": [], ""type"": {""kind"": ""NON_NULL"", ""name"": null, ""ofType"": {""kind"": ""SCALAR"", ""name"": ""Int"", ""ofType"": null}}, ""isDeprecated"": false, ""deprecationReason"": null}, {""name"": ""queryable"", ""description"": "; "null, ""args"": [], ""type"": {""kind"": ""NON_NULL"", ""name"": null, ""ofType"": {""kind"": ""SCALAR"", ""name"": ""Boolean"", ""ofType"": null}}, ""isDeprecated"": false, ""deprecationReason"": null}], ""inputFields"": null, ""interfaces"": null, ""enumValues"": null, ""possibleTypes"": [{""kind"": ""OBJECT"", ""name"": ""KeyValueTag"", ""ofType"": null}, {""kind"": ""OBJECT"", ""name"": ""BooleanTag"", ""ofType"": null}, {""kind"": ""OBJECT"", ""name"""; ": ""JSONTag"", ""ofType"": null}]}, {""kind"": ""INTERFACE"", ""name"": ""Tagged"", ""description"": null, ""fields"": [{""name"": ""tags"", ""description"": null, ""args"": [], ""type"": {""kind"": ""NON_NULL"", ""name"": null, ""ofType"": {""kind"": ""LIST"", ""name"": null, ""ofType"": {""kind"": ""NON_NULL"", ""name"": null, ""ofType"": {""kind"": ""UNION"", ""name"": ""ResourceTag"", ""ofType"": null}}}}, ""isDeprecated"": false, ""deprecationReason"": nu"; "ll}], ""inputFields"": null, ""interfaces"": null, ""enumValues"": null, ""possibleTypes"": [{""kind"": ""OBJECT"", ""name"": ""User"", ""ofType"": null}, {""kind"": ""OBJECT"", ""name"": ""Host"", ""ofType"": null}, {""kind"": ""OBJECT"", ""name"": ""Network"", ""ofType"": null}]}, {""kind"": ""UNION"", ""name"": ""ResourceTag"", ""description"": null, ""fields"": null, ""inputFields"": null, ""interfaces"": null, ""enumValues"": null, ""possibleTypes"""; ": [{""kind"": ""OBJECT"", ""name"": ""KeyValueTag"", ""ofType"": null}, {""kind"": ""OBJECT"", ""name"": ""BooleanTag"", ""ofType"": null}, {""kind"": ""OBJECT"", ""name"": ""JSONTag"", ""ofType"": null}]}, {""kind"": ""OBJECT"", ""name"": ""KeyValueTag"", ""description"": null, ""fields"": [{""name"": ""author"", ""description"": null, ""args"": [], ""type"": {""kind"": ""NON_NULL"", ""name"": null, ""ofType"": {""kind"": ""OBJECT"", ""name"": ""User"", ""ofType"":"; " null}}, ""isDeprecated"": false, ""deprecationReason"": null}, {""name"": ""timeToLiveMs"", ""description"": null, ""args"": [], ""type"": {""kind"": ""NON_NULL"", ""name"": null, ""ofType"": {""kind"": ""SCALAR"", ""name"": ""Int"", ""ofType"": null}}, ""isDeprecated"": false, ""deprecationReason"": null}, {""name"": ""queryable"", ""description"": null, ""args"": [], ""type"": {""kind"": ""NON_NULL"", ""name"": null, ""ofType"": {""kind"": ""SCALAR"","; " ""name"": ""Boolean"", ""ofType"": null}}, ""isDeprecated"": false, ""deprecationReason"": null}, {""name"": ""key"", ""description"": null, ""args"": [], ""type"": {""kind"": ""NON_NULL"", ""name"": null, ""ofType"": {""kind"": ""SCALAR"", ""name"": ""String"", ""ofType"": null}}, ""isDeprecated"": false, ""deprecationReason"": null}, {""name"": ""value"", ""description"": null, ""args"": [], ""type"": {""kind"": ""NON_NULL"", ""name"": null, ""ofType"":"; " {""kind"": ""SCALAR"", ""name"": ""String"", ""ofType"": null}}, ""isDeprecated"": false, ""deprecationReason"": null}], ""inputFields"": null, ""interfaces"": [{""kind"": ""INTERFACE"", ""name"": ""Tag"", ""ofType"": null}], ""enumValues"": null, ""possibleTypes"": null}, {""kind"": ""OBJECT"", ""name"": ""BooleanTag"", ""description"": null, ""fields"": [{""name"": ""author"", ""description"": null, ""args"": [], ""type"": {""kind"": ""NON_NULL"", ""na"; "me"": null, ""ofType"": {""kind"": ""OBJECT"", ""name"": ""User"", ""ofType"": null}}, ""isDeprecated"": false, ""deprecationReason"": null}, {""name"": ""timeToLiveMs"", ""description"": null, ""args"": [], ""type"": {""kind"": ""NON_NULL"", ""name"": null, ""ofType"": {""kind"": ""SCALAR"", ""name"": ""Int"", ""ofType"": null}}, ""isDeprecated"": false, ""deprecationReason"": null}, {""name"": ""queryable"", ""description"": null, ""args"": [], ""type"""; ": {""kind"": ""NON_NULL"", ""name"": null, ""ofType"": {""kind"": ""SCALAR"", ""name"": ""Boolean"", ""ofType"": null}}, ""isDeprecated"": false, ""deprecationReason"": null}, {""name"": ""name"", ""description"": null, ""args"": [], ""type"": {""kind"": ""NON_NULL"", ""name"": null, ""ofType"": {""kind"": ""SCALAR"", ""name"": ""String"", ""ofType"": null}}, ""isDeprecated"": false, ""deprecationReason"": null}, {""name"": ""not"", ""description"": ""If tr"; "ue, this boolean tag has inverted meaning"", ""args"": [], ""type"": {""kind"": ""NON_NULL"", ""name"": null, ""ofType"": {""kind"": ""SCALAR"", ""name"": ""Boolean"", ""ofType"": null}}, ""isDeprecated"": false, ""deprecationReason"": null}], ""inputFields"": null, ""interfaces"": [{""kind"": ""INTERFACE"", ""name"": ""Tag"", ""ofType"": null}], ""enumValues"": null, ""possibleTypes"": null}, {""kind"": ""OBJECT"", ""name"": ""JSONTag"", ""descripti"; "on"": null, ""fields"": [{""name"": ""author"", ""description"": null, ""args"": [], ""type"": {""kind"": ""NON_NULL"", ""name"": null, ""ofType"": {""kind"": ""OBJECT"", ""name"": ""User"", ""ofType"": null}}, ""isDeprecated"": false, ""deprecationReason"": null}, {""name"": ""timeToLiveMs"", ""description"": null, ""args"": [], ""type"": {""kind"": ""NON_NULL"", ""name"": null, ""ofType"": {""kind"": ""SCALAR"", ""name"": ""Int"", ""ofType"": null}}, ""isDep"; "recated"": false, ""deprecationReason"": null}, {""name"": ""queryable"", ""description"": null, ""args"": [], ""type"": {""kind"": ""NON_NULL"", ""name"": null, ""ofType"": {""kind"": ""SCALAR"", ""name"": ""Boolean"", ""ofType"": null}}, ""isDeprecated"": false, ""deprecationReason"": null}, {""name"": ""content"", ""description"": null, ""args"": [], ""type"": {""kind"": ""NON_NULL"", ""name"": null, ""ofType"": {""kind"": ""SCALAR"", ""name"": ""JSON"","; " ""ofType"": null}}, ""isDeprecated"": false, ""deprecationReason"": null}], ""inputFields"": null, ""interfaces"": [{""kind"": ""INTERFACE"", ""name"": ""Tag"", ""ofType"": null}], ""enumValues"": null, ""possibleTypes"": null}, {""kind"": ""SCALAR"", ""name"": ""Boolean"", ""description"": null, ""fields"": null, ""inputFields"": null, ""interfaces"": null, ""enumValues"": null, ""possibleTypes"": null}, {""kind"": ""SCALAR"", ""name"": ""String"; """, ""description"": null, ""fields"": null, ""inputFields"": null, ""interfaces"": null, ""enumValues"": null, ""possibleTypes"": null}, {""kind"": ""SCALAR"", ""name"": ""Int"", ""description"": null, ""fields"": null, ""inputFields"": null, ""interfaces"": null, ""enumValues"": null, ""possibleTypes"": null}, {""kind"": ""SCALAR"", ""name"": ""Float"", ""description"": null, ""fields"": null, ""inputFields"": null, ""interfaces"": null, ""enum"; "Values"": null, ""possibleTypes"": null}, {""kind"": ""SCALAR"", ""name"": ""ID"", ""description"": null, ""fields"": null, ""inputFields"": null, ""interfaces"": null, ""enumValues"": null, ""possibleTypes"": null}]}}}"].

Definition id_order : order := fun _ _ l => l.
Definition rev_order : order := fun _ _ l => rev l.

(** a test: contents of the schema file, if any; whether the config file is passed; files; directories with the
    names and kinds (true: file) in them; arguments; what is expected *)
Record fixture := { fx_files : list (string * string); fx_dirs : list (string * list (string * bool));
                    fx_args : list string; fx_code : nat; fx_says : list string; fx_expected : list (string * string) }.

Definition no_such_file : string := "No such file or directory (os error 2)".
Definition fx_fs (x : fixture) : fs :=
  fun l => match find (fun d => String.eqb (fst d) l) (fx_files x) with Some d => Ok (snd d) | None => Err no_such_file end.
(** resolves the dot pieces of the paths occurring in the fixtures *)
Definition fx_locate (p : string) : string :=
  (if fst (components p) then "/" else "") +++ join "/" (snd (components p)).
Definition fx_env (o : order) : env :=
  {| env_parse := fun s => match parse_query {| gk_number := fun _ => true; gk_string := fun _ => true |} s with
                           | Some d => Ok d | None => Err "query parse error: Parse error" end;
     env_locate := fx_locate; env_write := fun _ => WOk;
     env_similar := similar_names; env_order := fun _ => o |}.
Definition fx_world (x : fixture) (o : order) : world :=
  {| wo_env := fx_env o;
     wo_listing := fun d => match find (fun e => String.eqb (fst e) (fx_locate d)) (fx_dirs x) with
                            | Some e => Ok (List.map (fun n => Ok {| de_name := fst n; de_kind := Ok (if snd n : bool then EkFile else EkDir) |}) (snd e))
                            | None => Err no_such_file
                            end;
     wo_ncpus := 4;
     wo_config := fun p => match fx_fs x (fx_locate p) with Ok t => config_of_text "JSON error" t | Err e => CRNotFound e end;
     wo_schema := fun p => match fx_fs x (fx_locate p) with Ok t => schema_of_text "JSON error" t | Err e => SRIoError e end;
     wo_fs := fx_fs x |}.
Fixpoint says (t s : string) : bool := starts_with t s || match s with EmptyString => false | String _ s' => says t s' end.
Definition fx_sched : list nat := repeat 0 150 ++ List.concat (repeat [1; 0] 60).
Definition fx_check (x : fixture) (o : order) : bool :=
  match qlc_command "" "" 50 (fx_world x o) ("--num-threads=2" :: "/r" :: fx_args x) fx_sched with
  | Exited code out f =>
      Nat.eqb code (fx_code x) && forallb (fun t => says t out) (fx_says x) &&
      forallb (fun e => match f (fst e) with Ok c => String.eqb c (snd e) | Err _ => false end) (fx_expected x)
  | _ => false
  end.

Definition fx_compile_simple_query : fixture :=
  {| fx_files := [("/r/simple_query.graphql", "query SimpleQuery {
  me: operator {
    id
    firstName
    last: lastName
  }
}
"); ("/r/schema.json", fx_schema_text)];
  fx_dirs := [("/r", [("simple_query.graphql", true); ("schema.json", true)])];
  fx_args := []; fx_code := 0;
  fx_says := [];
  fx_expected := [("/r/simple_query.graphql.d.ts", "/* eslint-disable */
// This file was automatically generated and should not be edited.

import type { QueryDocumentNode } from ""@notarize/qlc-cli/typed-documentnode"";

export type SimpleQuery_me = {
  readonly firstName: string;
  readonly id: string;
  readonly last: string;
};

export type SimpleQuery = {
  readonly me: SimpleQuery_me | null;
};

declare const graphqlDocument: QueryDocumentNode<SimpleQuery, never>;
export default graphqlDocument;")] |}.

Example fx_compile_simple_query_ok : fx_check fx_compile_simple_query id_order && fx_check fx_compile_simple_query rev_order = true.
Proof. vm_compute. reflexivity. Qed.

Definition fx_compile_simple_subscription : fixture :=
  {| fx_files := [("/r/simple_subscription.graphql", "subscription SimpleSubscription {
  me: operator {
    id
    firstName
    last: lastName
  }
}
"); ("/r/schema.json", fx_schema_text)];
  fx_dirs := [("/r", [("simple_subscription.graphql", true); ("schema.json", true)])];
  fx_args := []; fx_code := 0;
  fx_says := [];
  fx_expected := [("/r/simple_subscription.graphql.d.ts", "/* eslint-disable */
// This file was automatically generated and should not be edited.

import type { QueryDocumentNode } from ""@notarize/qlc-cli/typed-documentnode"";

export type SimpleSubscription_me = {
  readonly firstName: string;
  readonly id: string;
  readonly last: string;
};

export type SimpleSubscription = {
  readonly me: SimpleSubscription_me | null;
};

declare const graphqlDocument: QueryDocumentNode<SimpleSubscription, never>;
export default graphqlDocument;")] |}.

Example fx_compile_simple_subscription_ok : fx_check fx_compile_simple_subscription id_order && fx_check fx_compile_simple_subscription rev_order = true.
Proof. vm_compute. reflexivity. Qed.

Definition fx_compile_simple_mutation : fixture :=
  {| fx_files := [("/r/simple_mutation.graphql", "mutation SimpleMutation {
  decommissionHost(id: ""hardcoded"")
}
"); ("/r/schema.json", fx_schema_text)];
  fx_dirs := [("/r", [("simple_mutation.graphql", true); ("schema.json", true)])];
  fx_args := []; fx_code := 0;
  fx_says := [];
  fx_expected := [("/r/simple_mutation.graphql.d.ts", "/* eslint-disable */
// This file was automatically generated and should not be edited.

import type { MutationDocumentNode } from ""@notarize/qlc-cli/typed-documentnode"";

export type SimpleMutation = {
  readonly decommissionHost: boolean;
};

declare const graphqlDocument: MutationDocumentNode<SimpleMutation, never>;
export default graphqlDocument;")] |}.

Example fx_compile_simple_mutation_ok : fx_check fx_compile_simple_mutation id_order && fx_check fx_compile_simple_mutation rev_order = true.
Proof. vm_compute. reflexivity. Qed.

Definition fx_compile_simple_fragment : fixture :=
  {| fx_files := [("/r/simple_fragment.graphql", "fragment SimpleFragment on User {
  id
  email
  manager {
    id
    firstName
  }
}
"); ("/r/schema.json", fx_schema_text)];
  fx_dirs := [("/r", [("simple_fragment.graphql", true); ("schema.json", true)])];
  fx_args := []; fx_code := 0;
  fx_says := [];
  fx_expected := [("/r/simple_fragment.graphql.d.ts", "/* eslint-disable */
// This file was automatically generated and should not be edited.

import type { FragmentDocumentNode } from ""@notarize/qlc-cli/typed-documentnode"";

export type SimpleFragment_manager = {
  readonly firstName: string;
  readonly id: string;
};

export type SimpleFragment = {
  readonly email: string;
  readonly id: string;
  /**
   * A user's manager, if they have one
   */
  readonly manager: SimpleFragment_manager | null;
};

declare const graphqlDocument: FragmentDocumentNode<SimpleFragment>;
export default graphqlDocument;")] |}.

Example fx_compile_simple_fragment_ok : fx_check fx_compile_simple_fragment id_order && fx_check fx_compile_simple_fragment rev_order = true.
Proof. vm_compute. reflexivity. Qed.

Definition fx_compile_typename : fixture :=
  {| fx_files := [("/r/with_some_typename_query.graphql", "query WithSomeDunderDunderTypename {
  operator {
    as: __typename
    personalHost {
      __typename
      id
    }
  }
}
"); ("/r/schema.json", fx_schema_text)];
  fx_dirs := [("/r", [("with_some_typename_query.graphql", true); ("schema.json", true)])];
  fx_args := []; fx_code := 0;
  fx_says := [];
  fx_expected := [("/r/with_some_typename_query.graphql.d.ts", "/* eslint-disable */
// This file was automatically generated and should not be edited.

import type { QueryDocumentNode } from ""@notarize/qlc-cli/typed-documentnode"";

export type WithSomeDunderDunderTypename_operator_personalHost = {
  readonly __typename: ""Host"";
  readonly id: string;
};

export type WithSomeDunderDunderTypename_operator = {
  readonly as: ""User"";
  /**
   * A user's personal device
   */
  readonly personalHost: WithSomeDunderDunderTypename_operator_personalHost;
};

export type WithSomeDunderDunderTypename = {
  readonly operator: WithSomeDunderDunderTypename_operator | null;
};

declare const graphqlDocument: QueryDocumentNode<WithSomeDunderDunderTypename, never>;
export default graphqlDocument;")] |}.

Example fx_compile_typename_ok : fx_check fx_compile_typename id_order && fx_check fx_compile_typename rev_order = true.
Proof. vm_compute. reflexivity. Qed.

Definition fx_compile_with_all_module_config : fixture :=
  {| fx_files := [("/r/root_fragment.graphql", "fragment RootCheck on Host {
  id
  numCpus
}
"); ("/r/using_module_config_query.graphql", "#import ""./lower/low_fragment.graphql""
#import ""@web/root_fragment.graphql""

query UsingModuleConfig {
  operator {
    id
    personalHost {
      id
      ...RootCheck
    }
    ...LowerCheck
  }
}
"); ("/r/lower/low_fragment.graphql", "fragment LowerCheck on User {
  id
  personalHost {
    operatingSystem
  }
}
"); ("/r/schema.json", fx_schema_text)];
  fx_dirs := [("/r", [("lower", false); ("root_fragment.graphql", true); ("using_module_config_query.graphql", true); ("schema.json", true)]); ("/r/lower", [("low_fragment.graphql", true)])];
  fx_args := ["--global-types-module-name=@web/graphql_globals"; "--root-dir-import-prefix=@web/"; "--typed-graphql-documentnode-module-name=@web/typed_node"]; fx_code := 0;
  fx_says := [];
  fx_expected := [("/r/graphql_globals.ts", "/* eslint-disable */
// This file was automatically generated and should not be edited.

/**
 * An OS makes hardware useful
 */
export enum OperatingSystem {
  ARCH_LINUX = ""ARCH_LINUX"",
  FREEBSD = ""FREEBSD"",
  UBUNTU_LINUX = ""UBUNTU_LINUX"",
}"); ("/r/root_fragment.graphql.d.ts", "/* eslint-disable */
// This file was automatically generated and should not be edited.

import type { FragmentDocumentNode } from ""@web/typed_node"";

export type RootCheck = {
  readonly id: string;
  readonly numCpus: number;
};

declare const graphqlDocument: FragmentDocumentNode<RootCheck>;
export default graphqlDocument;"); ("/r/using_module_config_query.graphql.d.ts", "/* eslint-disable */
// This file was automatically generated and should not be edited.

import type { QueryDocumentNode } from ""@web/typed_node"";
import type { OperatingSystem } from ""@web/graphql_globals"";

export type UsingModuleConfig_operator_personalHost = {
  readonly id: string;
  readonly numCpus: number;
  readonly operatingSystem: OperatingSystem;
};

export type UsingModuleConfig_operator = {
  readonly id: string;
  /**
   * A user's personal device
   */
  readonly personalHost: UsingModuleConfig_operator_personalHost;
};

export type UsingModuleConfig = {
  readonly operator: UsingModuleConfig_operator | null;
};

declare const graphqlDocument: QueryDocumentNode<UsingModuleConfig, never>;
export default graphqlDocument;"); ("/r/lower/low_fragment.graphql.d.ts", "/* eslint-disable */
// This file was automatically generated and should not be edited.

import type { FragmentDocumentNode } from ""@web/typed_node"";
import type { OperatingSystem } from ""@web/graphql_globals"";

export type LowerCheck_personalHost = {
  readonly operatingSystem: OperatingSystem;
};

export type LowerCheck = {
  readonly id: string;
  /**
   * A user's personal device
   */
  readonly personalHost: LowerCheck_personalHost;
};

declare const graphqlDocument: FragmentDocumentNode<LowerCheck>;
export default graphqlDocument;")] |}.

Example fx_compile_with_all_module_config_ok : fx_check fx_compile_with_all_module_config id_order && fx_check fx_compile_with_all_module_config rev_order = true.
Proof. vm_compute. reflexivity. Qed.

Definition fx_compile_deep_fragments : fixture :=
  {| fx_files := [("/r/deeply_fragmented_query.graphql", "#import ""./used_deep_fragment.graphql""

query DeeplyFragmented {
  operator {
    id
    firstName
    ... on User {
      id
      id2: id
      ... on User {
        id3: id
      }
      ...UserDeep
    }
  }
}
"); ("/r/used_deep_fragment.graphql", "fragment UserDeep on User {
  idDeep: id
  lastName
}
"); ("/r/schema.json", fx_schema_text)];
  fx_dirs := [("/r", [("deeply_fragmented_query.graphql", true); ("used_deep_fragment.graphql", true); ("schema.json", true)])];
  fx_args := []; fx_code := 0;
  fx_says := [];
  fx_expected := [("/r/deeply_fragmented_query.graphql.d.ts", "/* eslint-disable */
// This file was automatically generated and should not be edited.

import type { QueryDocumentNode } from ""@notarize/qlc-cli/typed-documentnode"";

export type DeeplyFragmented_operator = {
  readonly firstName: string;
  readonly id: string;
  readonly id2: string;
  readonly id3: string;
  readonly idDeep: string;
  readonly lastName: string;
};

export type DeeplyFragmented = {
  readonly operator: DeeplyFragmented_operator | null;
};

declare const graphqlDocument: QueryDocumentNode<DeeplyFragmented, never>;
export default graphqlDocument;"); ("/r/used_deep_fragment.graphql.d.ts", "/* eslint-disable */
// This file was automatically generated and should not be edited.

import type { FragmentDocumentNode } from ""@notarize/qlc-cli/typed-documentnode"";

export type UserDeep = {
  readonly idDeep: string;
  readonly lastName: string;
};

declare const graphqlDocument: FragmentDocumentNode<UserDeep>;
export default graphqlDocument;")] |}.

Example fx_compile_deep_fragments_ok : fx_check fx_compile_deep_fragments id_order && fx_check fx_compile_deep_fragments rev_order = true.
Proof. vm_compute. reflexivity. Qed.

Definition fx_compile_absolute_import_fragments : fixture :=
  {| fx_files := [("/r/root_query.graphql", "#import ""host/personal_host_fragment.graphql""
#import ""./user/user_fragment.graphql""

query Root {
  operator {
    id
    ...RelativeFragmentUser
    personalHost {
      id
      ...AbsoluteFragmentHost
    }
  }
}
"); ("/r/host/personal_host_fragment.graphql", "fragment AbsoluteFragmentHost on Host {
  osFromAbsolute: operatingSystem
}
"); ("/r/user/sub_user_fragment.graphql", "fragment SubUser on User {
  email
}
"); ("/r/user/user_fragment.graphql", "#import ""host/personal_host_fragment.graphql""
#import ""./sub_user_fragment.graphql""

fragment RelativeFragmentUser on User {
  lastNameFromRelative: lastName
  personalHost {
    personalHostIdFromRelative: id
    ...AbsoluteFragmentHost
  }
  ...SubUser
}
"); ("/r/schema.json", fx_schema_text)];
  fx_dirs := [("/r", [("host", false); ("user", false); ("root_query.graphql", true); ("schema.json", true)]); ("/r/host", [("personal_host_fragment.graphql", true)]); ("/r/user", [("sub_user_fragment.graphql", true); ("user_fragment.graphql", true)])];
  fx_args := []; fx_code := 0;
  fx_says := [];
  fx_expected := [("/r/graphql-globals.ts", "/* eslint-disable */
// This file was automatically generated and should not be edited.

/**
 * An OS makes hardware useful
 */
export enum OperatingSystem {
  ARCH_LINUX = ""ARCH_LINUX"",
  FREEBSD = ""FREEBSD"",
  UBUNTU_LINUX = ""UBUNTU_LINUX"",
}"); ("/r/root_query.graphql.d.ts", "/* eslint-disable */
// This file was automatically generated and should not be edited.

import type { QueryDocumentNode } from ""@notarize/qlc-cli/typed-documentnode"";
import type { OperatingSystem } from ""graphql-globals"";

export type Root_operator_personalHost = {
  readonly id: string;
  readonly osFromAbsolute: OperatingSystem;
  readonly personalHostIdFromRelative: string;
};

export type Root_operator = {
  readonly email: string;
  readonly id: string;
  readonly lastNameFromRelative: string;
  /**
   * A user's personal device
   */
  readonly personalHost: Root_operator_personalHost;
};

export type Root = {
  readonly operator: Root_operator | null;
};

declare const graphqlDocument: QueryDocumentNode<Root, never>;
export default graphqlDocument;"); ("/r/host/personal_host_fragment.graphql.d.ts", "/* eslint-disable */
// This file was automatically generated and should not be edited.

import type { FragmentDocumentNode } from ""@notarize/qlc-cli/typed-documentnode"";
import type { OperatingSystem } from ""graphql-globals"";

export type AbsoluteFragmentHost = {
  readonly osFromAbsolute: OperatingSystem;
};

declare const graphqlDocument: FragmentDocumentNode<AbsoluteFragmentHost>;
export default graphqlDocument;"); ("/r/user/sub_user_fragment.graphql.d.ts", "/* eslint-disable */
// This file was automatically generated and should not be edited.

import type { FragmentDocumentNode } from ""@notarize/qlc-cli/typed-documentnode"";

export type SubUser = {
  readonly email: string;
};

declare const graphqlDocument: FragmentDocumentNode<SubUser>;
export default graphqlDocument;"); ("/r/user/user_fragment.graphql.d.ts", "/* eslint-disable */
// This file was automatically generated and should not be edited.

import type { FragmentDocumentNode } from ""@notarize/qlc-cli/typed-documentnode"";
import type { OperatingSystem } from ""graphql-globals"";

export type RelativeFragmentUser_personalHost = {
  readonly osFromAbsolute: OperatingSystem;
  readonly personalHostIdFromRelative: string;
};

export type RelativeFragmentUser = {
  readonly email: string;
  readonly lastNameFromRelative: string;
  /**
   * A user's personal device
   */
  readonly personalHost: RelativeFragmentUser_personalHost;
};

declare const graphqlDocument: FragmentDocumentNode<RelativeFragmentUser>;
export default graphqlDocument;")] |}.

Example fx_compile_absolute_import_fragments_ok : fx_check fx_compile_absolute_import_fragments id_order && fx_check fx_compile_absolute_import_fragments rev_order = true.
Proof. vm_compute. reflexivity. Qed.

Definition fx_compile_with_global_types : fixture :=
  {| fx_files := [("/r/globals_query.graphql", "query WithGlobals {
  operator {
    personalHost {
      id
      operatingSystem
    }
  }
}
"); ("/r/schema.json", fx_schema_text)];
  fx_dirs := [("/r", [("globals_query.graphql", true); ("schema.json", true)])];
  fx_args := []; fx_code := 0;
  fx_says := [];
  fx_expected := [("/r/globals_query.graphql.d.ts", "/* eslint-disable */
// This file was automatically generated and should not be edited.

import type { QueryDocumentNode } from ""@notarize/qlc-cli/typed-documentnode"";
import type { OperatingSystem } from ""graphql-globals"";

export type WithGlobals_operator_personalHost = {
  readonly id: string;
  readonly operatingSystem: OperatingSystem;
};

export type WithGlobals_operator = {
  /**
   * A user's personal device
   */
  readonly personalHost: WithGlobals_operator_personalHost;
};

export type WithGlobals = {
  readonly operator: WithGlobals_operator | null;
};

declare const graphqlDocument: QueryDocumentNode<WithGlobals, never>;
export default graphqlDocument;"); ("/r/graphql-globals.ts", "/* eslint-disable */
// This file was automatically generated and should not be edited.

/**
 * An OS makes hardware useful
 */
export enum OperatingSystem {
  ARCH_LINUX = ""ARCH_LINUX"",
  FREEBSD = ""FREEBSD"",
  UBUNTU_LINUX = ""UBUNTU_LINUX"",
}")] |}.

Example fx_compile_with_global_types_ok : fx_check fx_compile_with_global_types id_order && fx_check fx_compile_with_global_types rev_order = true.
Proof. vm_compute. reflexivity. Qed.

Definition fx_compile_custom_scalar_any : fixture :=
  {| fx_files := [("/r/custom_scalar_query.graphql", "query CustomScalar {
  operator {
    id
    activity {
      login
    }
  }
}
"); ("/r/schema.json", fx_schema_text)];
  fx_dirs := [("/r", [("custom_scalar_query.graphql", true); ("schema.json", true)])];
  fx_args := []; fx_code := 0;
  fx_says := [];
  fx_expected := [("/r/custom_scalar_query.graphql.d.ts", "/* eslint-disable */
// This file was automatically generated and should not be edited.

import type { QueryDocumentNode } from ""@notarize/qlc-cli/typed-documentnode"";

export type CustomScalar_operator_activity = {
  /**
   * User's last time successfully authenticating
   */
  readonly login: any | null;
};

export type CustomScalar_operator = {
  /**
   * User's activity timestamps
   */
  readonly activity: CustomScalar_operator_activity;
  readonly id: string;
};

export type CustomScalar = {
  readonly operator: CustomScalar_operator | null;
};

declare const graphqlDocument: QueryDocumentNode<CustomScalar, never>;
export default graphqlDocument;")] |}.

Example fx_compile_custom_scalar_any_ok : fx_check fx_compile_custom_scalar_any id_order && fx_check fx_compile_custom_scalar_any rev_order = true.
Proof. vm_compute. reflexivity. Qed.

Definition fx_compile_custom_scalar_with_default_names : fixture :=
  {| fx_files := [("/r/custom_scalar_query.graphql", "query CustomScalar {
  operator {
    id
    activity {
      login
    }
  }
}
"); ("/r/schema.json", fx_schema_text)];
  fx_dirs := [("/r", [("custom_scalar_query.graphql", true); ("schema.json", true)])];
  fx_args := ["--use-custom-scalars"]; fx_code := 0;
  fx_says := [];
  fx_expected := [("/r/custom_scalar_query.graphql.d.ts", "/* eslint-disable */
// This file was automatically generated and should not be edited.

import type { QueryDocumentNode } from ""@notarize/qlc-cli/typed-documentnode"";

export type CustomScalar_operator_activity = {
  /**
   * User's last time successfully authenticating
   */
  readonly login: ISO8601 | null;
};

export type CustomScalar_operator = {
  /**
   * User's activity timestamps
   */
  readonly activity: CustomScalar_operator_activity;
  readonly id: string;
};

export type CustomScalar = {
  readonly operator: CustomScalar_operator | null;
};

declare const graphqlDocument: QueryDocumentNode<CustomScalar, never>;
export default graphqlDocument;")] |}.

Example fx_compile_custom_scalar_with_default_names_ok : fx_check fx_compile_custom_scalar_with_default_names id_order && fx_check fx_compile_custom_scalar_with_default_names rev_order = true.
Proof. vm_compute. reflexivity. Qed.

Definition fx_compile_custom_scalar_with_prefixed_names : fixture :=
  {| fx_files := [("/r/custom_scalar_query.graphql", "query CustomScalar {
  operator {
    id
    activity {
      login
    }
  }
}
"); ("/r/schema.json", fx_schema_text)];
  fx_dirs := [("/r", [("custom_scalar_query.graphql", true); ("schema.json", true)])];
  fx_args := ["--use-custom-scalars"; "--custom-scalar-prefix=Prefix"]; fx_code := 0;
  fx_says := [];
  fx_expected := [("/r/custom_scalar_query.graphql.d.ts", "/* eslint-disable */
// This file was automatically generated and should not be edited.

import type { QueryDocumentNode } from ""@notarize/qlc-cli/typed-documentnode"";

export type CustomScalar_operator_activity = {
  /**
   * User's last time successfully authenticating
   */
  readonly login: PrefixISO8601 | null;
};

export type CustomScalar_operator = {
  /**
   * User's activity timestamps
   */
  readonly activity: CustomScalar_operator_activity;
  readonly id: string;
};

export type CustomScalar = {
  readonly operator: CustomScalar_operator | null;
};

declare const graphqlDocument: QueryDocumentNode<CustomScalar, never>;
export default graphqlDocument;")] |}.

Example fx_compile_custom_scalar_with_prefixed_names_ok : fx_check fx_compile_custom_scalar_with_prefixed_names id_order && fx_check fx_compile_custom_scalar_with_prefixed_names rev_order = true.
Proof. vm_compute. reflexivity. Qed.

Definition fx_compile_fields_with_recursive_list_types : fixture :=
  {| fx_files := [("/r/with_recursive_lists_query.graphql", "query WithRecursiveListFields {
  network(id: ""networkWithTopology"") {
    id
    # A list of lists
    hostIdGroups
    # A list of list of lists of nulls :)
    hostIdTopology
  }
}
"); ("/r/schema.json", fx_schema_text)];
  fx_dirs := [("/r", [("with_recursive_lists_query.graphql", true); ("schema.json", true)])];
  fx_args := []; fx_code := 0;
  fx_says := [];
  fx_expected := [("/r/with_recursive_lists_query.graphql.d.ts", "/* eslint-disable */
// This file was automatically generated and should not be edited.

import type { QueryDocumentNode } from ""@notarize/qlc-cli/typed-documentnode"";

export type WithRecursiveListFields_network = {
  readonly hostIdGroups: (string[])[];
  readonly hostIdTopology: (((((string | null)[] | null) | null)[] | null) | null)[] | null;
  readonly id: string;
};

export type WithRecursiveListFields = {
  readonly network: WithRecursiveListFields_network | null;
};

declare const graphqlDocument: QueryDocumentNode<WithRecursiveListFields, never>;
export default graphqlDocument;")] |}.

Example fx_compile_fields_with_recursive_list_types_ok : fx_check fx_compile_fields_with_recursive_list_types id_order && fx_check fx_compile_fields_with_recursive_list_types rev_order = true.
Proof. vm_compute. reflexivity. Qed.

Definition fx_compile_fields_with_deprecation_marker : fixture :=
  {| fx_files := [("/r/with_deprecated_query.graphql", "query WithDeprecatedFields {
  operator {
    id
    # publicRSAKey is deprecated but has no documentation
    publicRSAKey
    # lastLogin is deprecated and has documentation
    lastLogin
  }
}
"); ("/r/schema.json", fx_schema_text)];
  fx_dirs := [("/r", [("with_deprecated_query.graphql", true); ("schema.json", true)])];
  fx_args := []; fx_code := 0;
  fx_says := [];
  fx_expected := [("/r/with_deprecated_query.graphql.d.ts", "/* eslint-disable */
// This file was automatically generated and should not be edited.

import type { QueryDocumentNode } from ""@notarize/qlc-cli/typed-documentnode"";

export type WithDeprecatedFields_operator = {
  readonly id: string;
  /**
   * User's last time logging in
   * @deprecated
   */
  readonly lastLogin: any | null;
  /**
   * @deprecated
   */
  readonly publicRSAKey: string;
};

export type WithDeprecatedFields = {
  readonly operator: WithDeprecatedFields_operator | null;
};

declare const graphqlDocument: QueryDocumentNode<WithDeprecatedFields, never>;
export default graphqlDocument;")] |}.

Example fx_compile_fields_with_deprecation_marker_ok : fx_check fx_compile_fields_with_deprecation_marker id_order && fx_check fx_compile_fields_with_deprecation_marker rev_order = true.
Proof. vm_compute. reflexivity. Qed.

Definition fx_compile_fields_without_readonly_marker : fixture :=
  {| fx_files := [("/r/with_deprecated_query.graphql", "query NoReadOnlyPlease {
  operator {
    id
    personalHost {
      numCpus
    }
  }
}
"); ("/r/schema.json", fx_schema_text)];
  fx_dirs := [("/r", [("with_deprecated_query.graphql", true); ("schema.json", true)])];
  fx_args := ["--disable-readonly-types"]; fx_code := 0;
  fx_says := [];
  fx_expected := [("/r/with_deprecated_query.graphql.d.ts", "/* eslint-disable */
// This file was automatically generated and should not be edited.

import type { QueryDocumentNode } from ""@notarize/qlc-cli/typed-documentnode"";

export type NoReadOnlyPlease_operator_personalHost = {
  numCpus: number;
};

export type NoReadOnlyPlease_operator = {
  id: string;
  /**
   * A user's personal device
   */
  personalHost: NoReadOnlyPlease_operator_personalHost;
};

export type NoReadOnlyPlease = {
  operator: NoReadOnlyPlease_operator | null;
};

declare const graphqlDocument: QueryDocumentNode<NoReadOnlyPlease, never>;
export default graphqlDocument;")] |}.

Example fx_compile_fields_without_readonly_marker_ok : fx_check fx_compile_fields_without_readonly_marker id_order && fx_check fx_compile_fields_without_readonly_marker rev_order = true.
Proof. vm_compute. reflexivity. Qed.

Definition fx_compile_query_with_variables : fixture :=
  {| fx_files := [("/r/simple_with_variables_query.graphql", "query SimpleGetNetwork($networkId: ID!) {
  network(id: $networkId) {
    id
    cidr
  }
}
"); ("/r/schema.json", fx_schema_text)];
  fx_dirs := [("/r", [("simple_with_variables_query.graphql", true); ("schema.json", true)])];
  fx_args := []; fx_code := 0;
  fx_says := [];
  fx_expected := [("/r/simple_with_variables_query.graphql.d.ts", "/* eslint-disable */
// This file was automatically generated and should not be edited.

import type { QueryDocumentNode } from ""@notarize/qlc-cli/typed-documentnode"";

export type SimpleGetNetwork_network = {
  readonly cidr: string;
  readonly id: string;
};

export type SimpleGetNetwork = {
  readonly network: SimpleGetNetwork_network | null;
};

export type SimpleGetNetworkVariables = {
  networkId: string;
};

declare const graphqlDocument: QueryDocumentNode<SimpleGetNetwork, SimpleGetNetworkVariables>;
export default graphqlDocument;")] |}.

Example fx_compile_query_with_variables_ok : fx_check fx_compile_query_with_variables id_order && fx_check fx_compile_query_with_variables rev_order = true.
Proof. vm_compute. reflexivity. Qed.

Definition fx_compile_mutation_with_variables : fixture :=
  {| fx_files := [("/r/simple_with_variables_mutation.graphql", "mutation SimpleProvision($input: ProvisionHostInput!) {
  provisionHost(input: $input) {
    host {
      id
    }
  }
}
"); ("/r/schema.json", fx_schema_text)];
  fx_dirs := [("/r", [("simple_with_variables_mutation.graphql", true); ("schema.json", true)])];
  fx_args := []; fx_code := 0;
  fx_says := [];
  fx_expected := [("/r/graphql-globals.ts", "/* eslint-disable */
// This file was automatically generated and should not be edited.

/**
 * An OS makes hardware useful
 */
export enum OperatingSystem {
  ARCH_LINUX = ""ARCH_LINUX"",
  FREEBSD = ""FREEBSD"",
  UBUNTU_LINUX = ""UBUNTU_LINUX"",
}

export type ProvisionHostInput = {
  os: OperatingSystem;
};"); ("/r/simple_with_variables_mutation.graphql.d.ts", "/* eslint-disable */
// This file was automatically generated and should not be edited.

import type { MutationDocumentNode } from ""@notarize/qlc-cli/typed-documentnode"";
import type { ProvisionHostInput } from ""graphql-globals"";

export type SimpleProvision_provisionHost_host = {
  readonly id: string;
};

export type SimpleProvision_provisionHost = {
  readonly host: SimpleProvision_provisionHost_host;
};

export type SimpleProvision = {
  /**
   * Null return means it failed
   */
  readonly provisionHost: SimpleProvision_provisionHost | null;
};

export type SimpleProvisionVariables = {
  input: ProvisionHostInput;
};

declare const graphqlDocument: MutationDocumentNode<SimpleProvision, SimpleProvisionVariables>;
export default graphqlDocument;")] |}.

Example fx_compile_mutation_with_variables_ok : fx_check fx_compile_mutation_with_variables id_order && fx_check fx_compile_mutation_with_variables rev_order = true.
Proof. vm_compute. reflexivity. Qed.

Definition fx_compile_mutation_with_inputs_including_lists : fixture :=
  {| fx_files := [("/r/variables_including_lists_mutation.graphql", "mutation AddHostToManyNetworks($input: AttachHostToNetworksInput!) {
  attachHostToNetworks(input: $input) {
    host {
      id
      networks {
        id
      }
    }
  }
}
"); ("/r/schema.json", fx_schema_text)];
  fx_dirs := [("/r", [("variables_including_lists_mutation.graphql", true); ("schema.json", true)])];
  fx_args := []; fx_code := 0;
  fx_says := [];
  fx_expected := [("/r/graphql-globals.ts", "/* eslint-disable */
// This file was automatically generated and should not be edited.

export type AttachHostToNetworksInput = {
  /**
   * ID of host to attach
   */
  hostId: string;
  /**
   * IDs of networks to attach to
   */
  networkIds: string[];
};"); ("/r/variables_including_lists_mutation.graphql.d.ts", "/* eslint-disable */
// This file was automatically generated and should not be edited.

import type { MutationDocumentNode } from ""@notarize/qlc-cli/typed-documentnode"";
import type { AttachHostToNetworksInput } from ""graphql-globals"";

export type AddHostToManyNetworks_attachHostToNetworks_host_networks = {
  readonly id: string;
};

export type AddHostToManyNetworks_attachHostToNetworks_host = {
  readonly id: string;
  readonly networks: AddHostToManyNetworks_attachHostToNetworks_host_networks[];
};

export type AddHostToManyNetworks_attachHostToNetworks = {
  readonly host: AddHostToManyNetworks_attachHostToNetworks_host;
};

export type AddHostToManyNetworks = {
  readonly attachHostToNetworks: AddHostToManyNetworks_attachHostToNetworks;
};

export type AddHostToManyNetworksVariables = {
  input: AttachHostToNetworksInput;
};

declare const graphqlDocument: MutationDocumentNode<AddHostToManyNetworks, AddHostToManyNetworksVariables>;
export default graphqlDocument;")] |}.

Example fx_compile_mutation_with_inputs_including_lists_ok : fx_check fx_compile_mutation_with_inputs_including_lists id_order && fx_check fx_compile_mutation_with_inputs_including_lists rev_order = true.
Proof. vm_compute. reflexivity. Qed.

Definition fx_compile_interface_with_typename : fixture :=
  {| fx_files := [("/r/get_by_node.graphql", "query GetByNodeWithInterface {
  network123: node(id: ""network123"") {
    __typename
    as: __typename
    ... on Network {
      __typename
      another: __typename
      cidr
      hosts {
        totalCount
      }
    }
  }
}
"); ("/r/schema.json", fx_schema_text)];
  fx_dirs := [("/r", [("get_by_node.graphql", true); ("schema.json", true)])];
  fx_args := []; fx_code := 0;
  fx_says := [];
  fx_expected := [("/r/get_by_node.graphql.d.ts", "/* eslint-disable */
// This file was automatically generated and should not be edited.

import type { QueryDocumentNode } from ""@notarize/qlc-cli/typed-documentnode"";

export type GetByNodeWithInterface_network123_Network_hosts = {
  readonly totalCount: number;
};

export type GetByNodeWithInterface_network123_Network = {
  readonly __typename: ""Network"";
  readonly another: ""Network"";
  readonly as: ""Network"";
  readonly cidr: string;
  readonly hosts: GetByNodeWithInterface_network123_Network_hosts;
};

export type GetByNodeWithInterface_network123_$$other = {
  readonly __typename: ""Host"" | ""User"";
  readonly as: ""Host"" | ""User"";
};

export type GetByNodeWithInterface_network123 = GetByNodeWithInterface_network123_Network | GetByNodeWithInterface_network123_$$other;

export type GetByNodeWithInterface = {
  readonly network123: GetByNodeWithInterface_network123 | null;
};

declare const graphqlDocument: QueryDocumentNode<GetByNodeWithInterface, never>;
export default graphqlDocument;")] |}.

Example fx_compile_interface_with_typename_ok : fx_check fx_compile_interface_with_typename id_order && fx_check fx_compile_interface_with_typename rev_order = true.
Proof. vm_compute. reflexivity. Qed.

Definition fx_compile_interface_abstract_only : fixture :=
  {| fx_files := [("/r/get_by_node.graphql", "query GetByNodeAbstractOnly {
  host: node(id: ""host568"") {
    id
  }
}
"); ("/r/schema.json", fx_schema_text)];
  fx_dirs := [("/r", [("get_by_node.graphql", true); ("schema.json", true)])];
  fx_args := []; fx_code := 0;
  fx_says := [];
  fx_expected := [("/r/get_by_node.graphql.d.ts", "/* eslint-disable */
// This file was automatically generated and should not be edited.

import type { QueryDocumentNode } from ""@notarize/qlc-cli/typed-documentnode"";

export type GetByNodeAbstractOnly_host = {
  readonly id: string;
};

export type GetByNodeAbstractOnly = {
  readonly host: GetByNodeAbstractOnly_host | null;
};

declare const graphqlDocument: QueryDocumentNode<GetByNodeAbstractOnly, never>;
export default graphqlDocument;")] |}.

Example fx_compile_interface_abstract_only_ok : fx_check fx_compile_interface_abstract_only id_order && fx_check fx_compile_interface_abstract_only rev_order = true.
Proof. vm_compute. reflexivity. Qed.

Definition fx_compile_interface_concrete_only : fixture :=
  {| fx_files := [("/r/get_by_node.graphql", "query GetByNodeConcreteOnly {
  desiredUser: node(id: ""user965"") {
    ... on User {
      email
      firstName
    }
  }
}
"); ("/r/schema.json", fx_schema_text)];
  fx_dirs := [("/r", [("get_by_node.graphql", true); ("schema.json", true)])];
  fx_args := []; fx_code := 0;
  fx_says := [];
  fx_expected := [("/r/get_by_node.graphql.d.ts", "/* eslint-disable */
// This file was automatically generated and should not be edited.

import type { QueryDocumentNode } from ""@notarize/qlc-cli/typed-documentnode"";

export type GetByNodeConcreteOnly_desiredUser_User = {
  readonly email: string;
  readonly firstName: string;
};

export type GetByNodeConcreteOnly_desiredUser_$$other = {

};

export type GetByNodeConcreteOnly_desiredUser = GetByNodeConcreteOnly_desiredUser_User | GetByNodeConcreteOnly_desiredUser_$$other;

export type GetByNodeConcreteOnly = {
  readonly desiredUser: GetByNodeConcreteOnly_desiredUser | null;
};

declare const graphqlDocument: QueryDocumentNode<GetByNodeConcreteOnly, never>;
export default graphqlDocument;")] |}.

Example fx_compile_interface_concrete_only_ok : fx_check fx_compile_interface_concrete_only id_order && fx_check fx_compile_interface_concrete_only rev_order = true.
Proof. vm_compute. reflexivity. Qed.

Definition fx_compile_union_with_concrete_only : fixture :=
  {| fx_files := [("/r/tagged_user_query.graphql", "query GetTagsForCurrentOperator {
  operator {
    email
    tags {
      __typename
      ... on JSONTag {
        content
      }
      ... on BooleanTag {
        name
      }
      ... on KeyValueTag {
        key
        value
      }
      ... on BooleanTag {
        name
        not
        notNot: not
      }
    }
  }
}
"); ("/r/schema.json", fx_schema_text)];
  fx_dirs := [("/r", [("tagged_user_query.graphql", true); ("schema.json", true)])];
  fx_args := []; fx_code := 0;
  fx_says := [];
  fx_expected := [("/r/tagged_user_query.graphql.d.ts", "/* eslint-disable */
// This file was automatically generated and should not be edited.

import type { QueryDocumentNode } from ""@notarize/qlc-cli/typed-documentnode"";

export type GetTagsForCurrentOperator_operator_tags_BooleanTag = {
  readonly __typename: ""BooleanTag"";
  readonly name: string;
  /**
   * If true, this boolean tag has inverted meaning
   */
  readonly not: boolean;
  /**
   * If true, this boolean tag has inverted meaning
   */
  readonly notNot: boolean;
};

export type GetTagsForCurrentOperator_operator_tags_JSONTag = {
  readonly __typename: ""JSONTag"";
  readonly content: any;
};

export type GetTagsForCurrentOperator_operator_tags_KeyValueTag = {
  readonly __typename: ""KeyValueTag"";
  readonly key: string;
  readonly value: string;
};

export type GetTagsForCurrentOperator_operator_tags = GetTagsForCurrentOperator_operator_tags_BooleanTag | GetTagsForCurrentOperator_operator_tags_JSONTag | GetTagsForCurrentOperator_operator_tags_KeyValueTag;

export type GetTagsForCurrentOperator_operator = {
  readonly email: string;
  readonly tags: GetTagsForCurrentOperator_operator_tags[];
};

export type GetTagsForCurrentOperator = {
  readonly operator: GetTagsForCurrentOperator_operator | null;
};

declare const graphqlDocument: QueryDocumentNode<GetTagsForCurrentOperator, never>;
export default graphqlDocument;")] |}.

Example fx_compile_union_with_concrete_only_ok : fx_check fx_compile_union_with_concrete_only id_order && fx_check fx_compile_union_with_concrete_only rev_order = true.
Proof. vm_compute. reflexivity. Qed.

Definition fx_compile_union_with_typenames : fixture :=
  {| fx_files := [("/r/tagged_host_query.graphql", "query GetTagTypeNamesForHost {
  host(id: ""taggedHost"") {
    tags {
      __typename
      as: __typename

      ... on JSONTag {
        typername: __typename
        content
      }

      ... on BooleanTag {
        name
      }
    }
  }
}
"); ("/r/schema.json", fx_schema_text)];
  fx_dirs := [("/r", [("tagged_host_query.graphql", true); ("schema.json", true)])];
  fx_args := []; fx_code := 0;
  fx_says := [];
  fx_expected := [("/r/tagged_host_query.graphql.d.ts", "/* eslint-disable */
// This file was automatically generated and should not be edited.

import type { QueryDocumentNode } from ""@notarize/qlc-cli/typed-documentnode"";

export type GetTagTypeNamesForHost_host_tags_BooleanTag = {
  readonly __typename: ""BooleanTag"";
  readonly as: ""BooleanTag"";
  readonly name: string;
};

export type GetTagTypeNamesForHost_host_tags_JSONTag = {
  readonly __typename: ""JSONTag"";
  readonly as: ""JSONTag"";
  readonly content: any;
  readonly typername: ""JSONTag"";
};

export type GetTagTypeNamesForHost_host_tags_$$other = {
  readonly __typename: ""KeyValueTag"";
  readonly as: ""KeyValueTag"";
};

export type GetTagTypeNamesForHost_host_tags = GetTagTypeNamesForHost_host_tags_BooleanTag | GetTagTypeNamesForHost_host_tags_JSONTag | GetTagTypeNamesForHost_host_tags_$$other;

export type GetTagTypeNamesForHost_host = {
  readonly tags: GetTagTypeNamesForHost_host_tags[];
};

export type GetTagTypeNamesForHost = {
  readonly host: GetTagTypeNamesForHost_host | null;
};

declare const graphqlDocument: QueryDocumentNode<GetTagTypeNamesForHost, never>;
export default graphqlDocument;")] |}.

Example fx_compile_union_with_typenames_ok : fx_check fx_compile_union_with_typenames id_order && fx_check fx_compile_union_with_typenames rev_order = true.
Proof. vm_compute. reflexivity. Qed.

Definition fx_compile_union_with_abstract_only : fixture :=
  {| fx_files := [("/r/tagged_network_query.graphql", "query GetTagsForNetwork {
  network(id: ""taggedNetwork"") {
    id
    tags {
      __typename
      ... on Tag {
        timeToLiveMs
        author {
          __typename
          id
          tags {
            ... on Tag {
              timeToLiveMs
            }
          }
        }
      }
    }
  }
}
"); ("/r/schema.json", fx_schema_text)];
  fx_dirs := [("/r", [("tagged_network_query.graphql", true); ("schema.json", true)])];
  fx_args := []; fx_code := 0;
  fx_says := [];
  fx_expected := [("/r/tagged_network_query.graphql.d.ts", "/* eslint-disable */
// This file was automatically generated and should not be edited.

import type { QueryDocumentNode } from ""@notarize/qlc-cli/typed-documentnode"";

export type GetTagsForNetwork_network_tags_author_tags = {
  readonly timeToLiveMs: number;
};

export type GetTagsForNetwork_network_tags_author = {
  readonly __typename: ""User"";
  readonly id: string;
  readonly tags: GetTagsForNetwork_network_tags_author_tags[];
};

export type GetTagsForNetwork_network_tags = {
  readonly __typename: ""BooleanTag"" | ""JSONTag"" | ""KeyValueTag"";
  readonly author: GetTagsForNetwork_network_tags_author;
  readonly timeToLiveMs: number;
};

export type GetTagsForNetwork_network = {
  readonly id: string;
  readonly tags: GetTagsForNetwork_network_tags[];
};

export type GetTagsForNetwork = {
  readonly network: GetTagsForNetwork_network | null;
};

declare const graphqlDocument: QueryDocumentNode<GetTagsForNetwork, never>;
export default graphqlDocument;")] |}.

Example fx_compile_union_with_abstract_only_ok : fx_check fx_compile_union_with_abstract_only id_order && fx_check fx_compile_union_with_abstract_only rev_order = true.
Proof. vm_compute. reflexivity. Qed.

Definition fx_compile_union_with_fragments : fixture :=
  {| fx_files := [("/r/resource_tag_fragment.graphql", "fragment MyResourceTag on ResourceTag {
  __typename
  ... on Tag {
    author {
      id
      email
    }
    timeToLiveMs
  }
  ... on BooleanTag {
    name
    not
  }
  ... on KeyValueTag {
    timeToLiveMs
    keyTTL: timeToLiveMs
    key
    anotherKeyName: key
    value
  }
}
"); ("/r/schema.json", fx_schema_text)];
  fx_dirs := [("/r", [("resource_tag_fragment.graphql", true); ("schema.json", true)])];
  fx_args := []; fx_code := 0;
  fx_says := [];
  fx_expected := [("/r/resource_tag_fragment.graphql.d.ts", "/* eslint-disable */
// This file was automatically generated and should not be edited.

import type { FragmentDocumentNode } from ""@notarize/qlc-cli/typed-documentnode"";

export type MyResourceTag_BooleanTag_author = {
  readonly email: string;
  readonly id: string;
};

export type MyResourceTag_BooleanTag = {
  readonly __typename: ""BooleanTag"";
  readonly author: MyResourceTag_BooleanTag_author;
  readonly name: string;
  /**
   * If true, this boolean tag has inverted meaning
   */
  readonly not: boolean;
  readonly timeToLiveMs: number;
};

export type MyResourceTag_KeyValueTag_author = {
  readonly email: string;
  readonly id: string;
};

export type MyResourceTag_KeyValueTag = {
  readonly __typename: ""KeyValueTag"";
  readonly anotherKeyName: string;
  readonly author: MyResourceTag_KeyValueTag_author;
  readonly key: string;
  readonly keyTTL: number;
  readonly timeToLiveMs: number;
  readonly value: string;
};

export type MyResourceTag_$$other_author = {
  readonly email: string;
  readonly id: string;
};

export type MyResourceTag_$$other = {
  readonly __typename: ""JSONTag"";
  readonly author: MyResourceTag_$$other_author;
  readonly timeToLiveMs: number;
};

export type MyResourceTag = MyResourceTag_BooleanTag | MyResourceTag_KeyValueTag | MyResourceTag_$$other;

declare const graphqlDocument: FragmentDocumentNode<MyResourceTag>;
export default graphqlDocument;")] |}.

Example fx_compile_union_with_fragments_ok : fx_check fx_compile_union_with_fragments id_order && fx_check fx_compile_union_with_fragments rev_order = true.
Proof. vm_compute. reflexivity. Qed.

Definition fx_run_with_empty_dir : fixture :=
  {| fx_files := [("/r/schema.json", fx_schema_text)];
  fx_dirs := [("/r", [("schema.json", true)])];
  fx_args := []; fx_code := 0;
  fx_says := [];
  fx_expected := [] |}.

Example fx_run_with_empty_dir_ok : fx_check fx_run_with_empty_dir id_order && fx_check fx_run_with_empty_dir rev_order = true.
Proof. vm_compute. reflexivity. Qed.

Definition fx_run_without_schema_file : fixture :=
  {| fx_files := [];
  fx_dirs := [("/r", [])];
  fx_args := []; fx_code := 1;
  fx_says := ["/schema.json`: No such file or directory"];
  fx_expected := [] |}.

Example fx_run_without_schema_file_ok : fx_check fx_run_without_schema_file id_order && fx_check fx_run_without_schema_file rev_order = true.
Proof. vm_compute. reflexivity. Qed.

Definition fx_compile_with_importing_query_instead_of_fragment : fixture :=
  {| fx_files := [("/r/imported_query.graphql", "query ImportedQuery {
  operator {
    id
  }
}
"); ("/r/main_query.graphql", "#import ""./imported_query.graphql""

query MainQueryWithBadImport {
  operator {
    id
  }
}
"); ("/r/schema.json", fx_schema_text)];
  fx_dirs := [("/r", [("imported_query.graphql", true); ("main_query.graphql", true); ("schema.json", true)])];
  fx_args := []; fx_code := 1;
  fx_says := ["= help: This document is not a fragment, and importing it is probably a mistake."; "#import ""./imported_query.graphql""
  |         ^"; "--> /r/main_query.graphql"];
  fx_expected := [] |}.

Example fx_compile_with_importing_query_instead_of_fragment_ok : fx_check fx_compile_with_importing_query_instead_of_fragment id_order && fx_check fx_compile_with_importing_query_instead_of_fragment rev_order = true.
Proof. vm_compute. reflexivity. Qed.

Definition fx_compile_with_missing_fragment : fixture :=
  {| fx_files := [("/r/importing_missing_query.graphql", "#import ""./not_here.graphql""

query NonExistentFragment {
  operator {
    id
  }
}
"); ("/r/schema.json", fx_schema_text)];
  fx_dirs := [("/r", [("importing_missing_query.graphql", true); ("schema.json", true)])];
  fx_args := []; fx_code := 1;
  fx_says := ["error: could not read `/r/./not_here.graphql`: No such file or directory (os error 2)"; "#import ""./not_here.graphql""
  |         ^"; "--> /r/importing_missing_query.graphql"];
  fx_expected := [] |}.

Example fx_compile_with_missing_fragment_ok : fx_check fx_compile_with_missing_fragment id_order && fx_check fx_compile_with_missing_fragment rev_order = true.
Proof. vm_compute. reflexivity. Qed.

Definition fx_run_with_unparseable_graphql : fixture :=
  {| fx_files := [("/r/unparseable.graphql", "# Syntax error:
query Unparsable {{
  operator {
    id
  }
}
"); ("/r/schema.json", fx_schema_text)];
  fx_dirs := [("/r", [("unparseable.graphql", true); ("schema.json", true)])];
  fx_args := []; fx_code := 1;
  fx_says := ["--> /r/unparseable.graphql"];
  fx_expected := [] |}.

Example fx_run_with_unparseable_graphql_ok : fx_check fx_run_with_unparseable_graphql id_order && fx_check fx_run_with_unparseable_graphql rev_order = true.
Proof. vm_compute. reflexivity. Qed.

Definition fx_run_with_broken_config_file : fixture :=
  {| fx_files := [("/r/.qlcrc.json", "{ ""notValidJson: true }"); ("/r/schema.json", fx_schema_text)];
  fx_dirs := [("/r", [(".qlcrc.json", true); ("schema.json", true)])];
  fx_args := ["-c"; "/r/.qlcrc.json"]; fx_code := 1;
  fx_says := ["program error: error in config file"; ".qlcrc.json`"];
  fx_expected := [] |}.

Example fx_run_with_broken_config_file_ok : fx_check fx_run_with_broken_config_file id_order && fx_check fx_run_with_broken_config_file rev_order = true.
Proof. vm_compute. reflexivity. Qed.

Definition fx_run_with_config_file_missing_schema : fixture :=
  {| fx_files := [("/r/.qlcrc.json", "{ ""schemaFile"": ""not_default_schema.json"" }"); ("/r/schema.json", fx_schema_text)];
  fx_dirs := [("/r", [(".qlcrc.json", true); ("schema.json", true)])];
  fx_args := ["-c"; "/r/.qlcrc.json"]; fx_code := 1;
  fx_says := ["error: could not read `/r/not_default_schema.json`: No such file or directory (os error 2)"];
  fx_expected := [] |}.

Example fx_run_with_config_file_missing_schema_ok : fx_check fx_run_with_config_file_missing_schema id_order && fx_check fx_run_with_config_file_missing_schema rev_order = true.
Proof. vm_compute. reflexivity. Qed.

Definition fx_run_with_invalid_config_file_schema_and_valid_cli_override : fixture :=
  {| fx_files := [("/r/.qlcrc.json", "{ ""schemaFile"": ""not_default_schema.json"" }"); ("/r/schema.json", fx_schema_text)];
  fx_dirs := [("/r", [(".qlcrc.json", true); ("schema.json", true)])];
  fx_args := ["-c"; "/r/.qlcrc.json"; "-s"; "/r/schema.json"]; fx_code := 0;
  fx_says := [];
  fx_expected := [] |}.

Example fx_run_with_invalid_config_file_schema_and_valid_cli_override_ok : fx_check fx_run_with_invalid_config_file_schema_and_valid_cli_override id_order && fx_check fx_run_with_invalid_config_file_schema_and_valid_cli_override rev_order = true.
Proof. vm_compute. reflexivity. Qed.

Definition fx_run_with_invalid_cli_schema_arg : fixture :=
  {| fx_files := [("/r/schema.json", fx_schema_text)];
  fx_dirs := [("/r", [("schema.json", true)])];
  fx_args := ["-s"; "not_a_real_file.json"]; fx_code := 1;
  fx_says := ["error: could not read `not_a_real_file.json`: No such file or directory (os error 2)"];
  fx_expected := [] |}.

Example fx_run_with_invalid_cli_schema_arg_ok : fx_check fx_run_with_invalid_cli_schema_arg id_order && fx_check fx_run_with_invalid_cli_schema_arg rev_order = true.
Proof. vm_compute. reflexivity. Qed.

Definition fx_run_with_invalid_schema_json_syntax : fixture :=
  {| fx_files := [("/r/schema.json", "{ ""notvalidJs: true ")];
  fx_dirs := [("/r", [("schema.json", true)])];
  fx_args := []; fx_code := 1;
  fx_says := ["error: malformed schema: JSON parse error: "];
  fx_expected := [] |}.

Example fx_run_with_invalid_schema_json_syntax_ok : fx_check fx_run_with_invalid_schema_json_syntax id_order && fx_check fx_run_with_invalid_schema_json_syntax rev_order = true.
Proof. vm_compute. reflexivity. Qed.

Definition fx_run_with_wrong_shape_schema_json : fixture :=
  {| fx_files := [("/r/schema.json", "{ ""unexpected"": 3 }")];
  fx_dirs := [("/r", [("schema.json", true)])];
  fx_args := []; fx_code := 1;
  fx_says := ["error: malformed schema: JSON parse error: "];
  fx_expected := [] |}.

Example fx_run_with_wrong_shape_schema_json_ok : fx_check fx_run_with_wrong_shape_schema_json id_order && fx_check fx_run_with_wrong_shape_schema_json rev_order = true.
Proof. vm_compute. reflexivity. Qed.

Definition fx_compile_with_use_show_deprecation_warnings : fixture :=
  {| fx_files := [("/r/with_deprecated_query.graphql", "query WithDeprecatedFields {
  operator {
    id
    publicRSAKey
  }
}
"); ("/r/schema.json", fx_schema_text)];
  fx_dirs := [("/r", [("with_deprecated_query.graphql", true); ("schema.json", true)])];
  fx_args := ["--show-deprecation-warnings"]; fx_code := 0;
  fx_says := ["warning: use of deprecated field `publicRSAKey` on type `User`"; "4 |     publicRSAKey
  |     ^"];
  fx_expected := [] |}.

Example fx_compile_with_use_show_deprecation_warnings_ok : fx_check fx_compile_with_use_show_deprecation_warnings id_order && fx_check fx_compile_with_use_show_deprecation_warnings rev_order = true.
Proof. vm_compute. reflexivity. Qed.

Definition fx_compile_with_non_schema_matching_graphql : fixture :=
  {| fx_files := [("/r/bad_schema_query.graphql", "query GarbageSchmea {
  doesNotExist
  alsoIsNot: nonExistent
}
"); ("/r/schema.json", fx_schema_text)];
  fx_dirs := [("/r", [("bad_schema_query.graphql", true); ("schema.json", true)])];
  fx_args := []; fx_code := 1;
  fx_says := ["= help: Check the fields of `Query`."; "2 |   doesNotExist
  |   ^"; "3 |   alsoIsNot: nonExistent
  |   ^"; "--> /r/bad_schema_query.graphql:3:3"; "--> /r/bad_schema_query.graphql:2:3"];
  fx_expected := [] |}.

Example fx_compile_with_non_schema_matching_graphql_ok : fx_check fx_compile_with_non_schema_matching_graphql id_order && fx_check fx_compile_with_non_schema_matching_graphql rev_order = true.
Proof. vm_compute. reflexivity. Qed.

Definition fx_compile_with_narrowing : fixture :=
  {| fx_files := [("/r/host_fragment.graphql", "fragment SpreadOnHost on Host {
  id
}
"); ("/r/narrow_query.graphql", "#import ""./host_fragment.graphql""

query Narrowing {
  operator {
    id
    ...SpreadOnHost
    ... on Network {
      id
      cidr
    }
  }
}
"); ("/r/schema.json", fx_schema_text)];
  fx_dirs := [("/r", [("host_fragment.graphql", true); ("narrow_query.graphql", true); ("schema.json", true)])];
  fx_args := []; fx_code := 0;
  fx_says := ["= help: The parent types of this spread are limited to `User`, making spreading `Host` extraneous."; "6 |     ...SpreadOnHost
  |        ^"; "--> /r/narrow_query.graphql:6:8"; "= help: The parent types of this spread are limited to `User`, making spreading `Network` extraneous."; "7 |     ... on Network {
  |         ^"; "--> /r/narrow_query.graphql:7:9"];
  fx_expected := [] |}.

Example fx_compile_with_narrowing_ok : fx_check fx_compile_with_narrowing id_order && fx_check fx_compile_with_narrowing rev_order = true.
Proof. vm_compute. reflexivity. Qed.
